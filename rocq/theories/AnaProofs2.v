(** The operations on functions preserve domains and values. *)
From Coq Require Import List Arith ZArith Bool Reals Lia Permutation Lra.
From Verif Require Import PidModel LinModel AnaModel AnaProofs.
Import ListNotations.
Open Scope R_scope.

(** A total version of [eval], and its domain; with [s] the broken powers are only taken of positive numbers. *)
Definition powfR (v a : R) : R := if is_int a then powerRZ v (Int_part a) else if Reqb v 0 then 0 else Rpower v a.
Section Ev.
  Variable x : list R.
  Fixpoint evR (f : afn) : R :=
    match f with
    | AZero => 0 | AOne => 1 | AProj c => nth c x 0
    | ARealPow f a => powfR (evR f) a | ASin f => sin (evR f) | ACos f => cos (evR f)
    | ASum v => fold_right (fun p r => fst p * evR (snd p) + r) 0 v
    | AProd v => fold_right (fun p r => powerRZ (evR (snd p)) (fst p) * r) 1 v
    end.
  Variable s : bool.
  Definition pow_ok (v a : R) : Prop := if is_int a then (Int_part a < 0)%Z -> v <> 0 else 0 < v \/ (s = false /\ v = 0 /\ 0 < a).
  Fixpoint dom (f : afn) : Prop :=
    match f with
    | AZero | AOne => True | AProj c => (c < length x)%nat
    | ARealPow f a => dom f /\ pow_ok (evR f) a
    | ASin f | ACos f => dom f
    | ASum v => fold_right (fun p P => dom (snd p) /\ P) True v
    | AProd v => fold_right (fun p P => (dom (snd p) /\ ((fst p < 0)%Z -> evR (snd p) <> 0)) /\ P) True v
    end.
  Definition rP (p : R * afn) : Prop := dom (snd p).
  Definition zP (p : Z * afn) : Prop := dom (snd p) /\ ((fst p < 0)%Z -> evR (snd p) <> 0).
  Definition rphi (p : R * afn) : R := fst p * evR (snd p).
  Definition zphi (p : Z * afn) : R := powerRZ (evR (snd p)) (fst p).
  Lemma fold_Forall {A} (Q : A -> Prop) l : fold_right (fun p P => Q p /\ P) True l <-> Forall Q l.
  Proof. induction l as [|a l IH]; cbn; split; intros H; [constructor|exact I| |]. - constructor; tauto. - inversion H; tauto. Qed.
  Lemma dom_sum v : dom (ASum v) <-> Forall rP v.
  Proof. apply (fold_Forall rP). Qed.
  Lemma dom_prod v : dom (AProd v) <-> Forall zP v.
  Proof. apply (fold_Forall zP). Qed.
  Lemma ev_sum v : evR (ASum v) = tot Rplus 0 rphi v. Proof. reflexivity. Qed.
  Lemma ev_prod v : evR (AProd v) = tot Rmult 1 zphi v. Proof. reflexivity. Qed.

  Lemma pow_nat v (z : Z) : (0 <= z)%Z -> powerRZ v z = v ^ Z.to_nat z.
  Proof. intros H. rewrite pow_powerRZ, Z2Nat.id by exact H. reflexivity. Qed.
  Lemma pz_add v a b : ((a < 0)%Z -> v <> 0) -> ((b < 0)%Z -> v <> 0) -> powerRZ v (a + b) = powerRZ v a * powerRZ v b.
  Proof.
    intros Ha Hb. destruct (Req_dec v 0) as [E|N]; [|now apply powerRZ_add].
    assert (0 <= a)%Z by (destruct (Z.ltb_spec a 0); [now destruct (Ha H)|assumption]). assert (0 <= b)%Z by (destruct (Z.ltb_spec b 0); [now destruct (Hb H0)|assumption]).
    rewrite !pow_nat by lia. rewrite Z2Nat.inj_add by lia. apply pow_add.
  Qed.
  Lemma pz_opp v a : powerRZ v (- a) = / powerRZ v a.
  Proof. apply powerRZ_neg'. Qed.
  Lemma pz_pow_nat v a (n : nat) : powerRZ (powerRZ v a) (Z.of_nat n) = powerRZ v (a * Z.of_nat n).
  Proof.
    destruct (Req_dec v 0) as [->|N].
    - destruct n as [|n]; [now rewrite Z.mul_0_r|]. destruct (Z.eq_dec a 0) as [->|Na]; [cbn [powerRZ]; apply powerRZ_R1|].
      assert (Z0 : forall z, z <> 0%Z -> powerRZ 0 z = 0). { intros z Hz. destruct z as [|p|p]; [lia| |]; cbn [powerRZ]; pose proof (Pos2Nat.is_pos p); rewrite pow_i by lia; [reflexivity|apply Rinv_0]. }
      rewrite !Z0 by lia. reflexivity.
    - induction n as [|n IH]; [now rewrite Z.mul_0_r|]. rewrite Nat2Z.inj_succ, <- Z.add_1_r. rewrite Z.mul_add_distr_l, Z.mul_1_r, !powerRZ_add, IH by (try apply powerRZ_NOR; exact N). f_equal. apply powerRZ_1.
  Qed.
  Lemma pz_pow v a b : powerRZ (powerRZ v a) b = powerRZ v (a * b).
  Proof.
    destruct (Z.leb_spec 0 b) as [H|H]; [rewrite <- (Z2Nat.id b H); apply pz_pow_nat|].
    replace b with (- Z.of_nat (Z.to_nat (- b)))%Z by lia. rewrite pz_opp, Z.mul_opp_r, pz_opp, pz_pow_nat. reflexivity.
  Qed.

  Lemma r_phi_add a b f : rP (a, f) -> rP (b, f) -> rP (a + b, f) /\ rphi (a + b, f) = rphi (a, f) + rphi (b, f).
  Proof. intros H _. split; [exact H|]. unfold rphi. cbn. ring. Qed.
  Lemma r_phi_zero a f : rP (a, f) -> Reqb a 0 = true -> rphi (a, f) = 0.
  Proof. intros _ E. apply Reqb_eq in E. subst. unfold rphi. cbn. ring. Qed.
  Lemma z_phi_add a b f : zP (a, f) -> zP (b, f) -> zP ((a + b)%Z, f) /\ zphi ((a + b)%Z, f) = zphi (a, f) * zphi (b, f).
  Proof. intros [D Ha] [_ Hb]. cbn in *. split; [split; [exact D|cbn; intros H; destruct (Z.ltb_spec a 0); [auto|apply Hb; lia]]|]. unfold zphi. cbn. now apply pz_add. Qed.
  Lemma z_phi_zero a f : zP (a, f) -> (a =? 0)%Z = true -> zphi (a, f) = 1.
  Proof. intros _ E. apply Z.eqb_eq in E. subst. reflexivity. Qed.
  Lemma r_sum_spec vs : Forall rP (concat vs) -> exists out, r_sum vs = Some out /\ Forall rP out /\ tot Rplus 0 rphi out = tot Rplus 0 rphi (concat vs).
  Proof. intros F. destruct (g_sum_spec Rplus (fun c => Reqb c 0) Rplus 0 Rplus_comm (fun a b c => eq_sym (Rplus_assoc a b c)) Rplus_0_l rP rphi r_phi_add r_phi_zero vs F) as (out & E & A & B & _). exists out. auto. Qed.
  Lemma z_sum_spec vs : Forall zP (concat vs) -> exists out, z_sum vs = Some out /\ Forall zP out /\ tot Rmult 1 zphi out = tot Rmult 1 zphi (concat vs) /\ Forall (fun p => fst p <> 0%Z) out.
  Proof.
    intros F. destruct (g_sum_spec Z.add (fun c => (c =? 0)%Z) Rmult 1 Rmult_comm (fun a b c => eq_sym (Rmult_assoc a b c)) Rmult_1_l zP zphi z_phi_add z_phi_zero vs F) as (out & E & A & B & C). exists out. split; [exact E|]. split; [exact A|]. split; [exact B|].
    eapply Forall_impl; [|exact C]. intros p H. now apply Z.eqb_neq.
  Qed.
  Lemma rtot_app v w : tot Rplus 0 rphi (v ++ w) = tot Rplus 0 rphi v + tot Rplus 0 rphi w.
  Proof. apply tot_app; [intros; ring|intros; ring]. Qed.
  Lemma ztot_app v w : tot Rmult 1 zphi (v ++ w) = tot Rmult 1 zphi v * tot Rmult 1 zphi w.
  Proof. apply tot_app; [intros; ring|intros; ring]. Qed.
  Lemma r_scale_spec c v : Forall rP v -> Forall rP (r_scale c v) /\ tot Rplus 0 rphi (r_scale c v) = tot Rplus 0 rphi v * c.
  Proof.
    intros F. induction F as [|[a f] v H F (IH & E)]; [split; [constructor|cbn; ring]|]. change (r_scale c ((a, f) :: v)) with ((a * c, f) :: r_scale c v). split; [now constructor|].
    change (rphi (a * c, f) + tot Rplus 0 rphi (r_scale c v) = (rphi (a, f) + tot Rplus 0 rphi v) * c). rewrite E. unfold rphi. cbn [fst snd]. ring.
  Qed.
  Lemma r_vmul_spec c v : Forall rP v -> Forall rP (r_vmul v c) /\ tot Rplus 0 rphi (r_vmul v c) = tot Rplus 0 rphi v * c.
  Proof. intros F. unfold r_vmul. destruct (Reqb c 0) eqn:E; [|now apply r_scale_spec]. apply Reqb_eq in E. subst. split; [constructor|cbn; ring]. Qed.
  Lemma r_neg_spec v : Forall rP v -> Forall rP (r_neg v) /\ tot Rplus 0 rphi (r_neg v) = - tot Rplus 0 rphi v.
  Proof. intros F. unfold r_neg. destruct (r_scale_spec (- (1)) v F) as (A & B). split; [exact A|]. rewrite B. ring. Qed.
  Lemma r_vdiv_spec c v : c <> 0 -> Forall rP v -> Forall rP (r_vdiv v c) /\ tot Rplus 0 rphi (r_vdiv v c) = tot Rplus 0 rphi v / c.
  Proof.
    intros Hc F. induction F as [|[a f] v H F (IH & E)]; [split; [constructor|cbn; now field]|]. change (r_vdiv ((a, f) :: v) c) with ((a / c, f) :: r_vdiv v c). split; [now constructor|].
    change (rphi (a / c, f) + tot Rplus 0 rphi (r_vdiv v c) = (rphi (a, f) + tot Rplus 0 rphi v) / c). rewrite E. unfold rphi. cbn [fst snd]. now field.
  Qed.
  Lemma r_from_spec f : dom f -> Forall rP (r_from f) /\ tot Rplus 0 rphi (r_from f) = evR f.
  Proof. intros D. split; [now constructor|]. unfold rphi. cbn. ring. Qed.
  Lemma summand_spec f : dom f -> Forall rP (summand f) /\ tot Rplus 0 rphi (summand f) = evR f.
  Proof. intros D. destruct f; try (apply r_from_spec; exact D). cbn [summand]. split; [now apply dom_sum|reflexivity]. Qed.
  Lemma z_from_spec f : dom f -> Forall zP (z_from f) /\ tot Rmult 1 zphi (z_from f) = evR f.
  Proof. intros D. split; [constructor; [split; [exact D|cbn; lia]|constructor]|]. change (powerRZ (evR f) 1 * 1 = evR f). rewrite powerRZ_1. ring. Qed.
  Lemma factor_vec_spec f : dom f -> Forall zP (factor_vec f) /\ tot Rmult 1 zphi (factor_vec f) = evR f.
  Proof. intros D. destruct f; try (apply z_from_spec; exact D). cbn [factor_vec]. split; [now apply dom_prod|reflexivity]. Qed.

  Lemma a_smul_spec f c : dom f -> dom (a_smul f c) /\ evR (a_smul f c) = evR f * c.
  Proof.
    intros D. unfold a_smul. destruct (a_eqb f AZero) eqn:EZ; cbn [orb]; [apply a_eqb_eq in EZ; subst; cbn; split; [exact I|ring]|].
    destruct (Reqb c 0) eqn:E0; [apply Reqb_eq in E0; subst; cbn; split; [exact I|ring]|]. destruct (Reqb c 1) eqn:E1; [apply Reqb_eq in E1; subst; split; [exact D|ring]|].
    assert (K : dom (ASum (r_vmul (r_from f) c)) /\ evR (ASum (r_vmul (r_from f) c)) = evR f * c).
    { destruct (r_from_spec f D) as (A & B). destruct (r_vmul_spec c _ A) as (A' & B'). split; [now apply dom_sum|]. rewrite ev_sum, B', B. reflexivity. }
    destruct f; try exact K. apply dom_sum in D. destruct (r_scale_spec c v D) as (A & B). split; [now apply dom_sum|]. now rewrite !ev_sum, B.
  Qed.
  Lemma a_sdiv_spec f c : c <> 0 -> dom f -> exists h, a_sdiv f c = Some h /\ dom h /\ evR h = evR f / c.
  Proof.
    intros Hc D. unfold a_sdiv. apply Reqb_neq in Hc as Ec. rewrite Ec. destruct (a_eqb f AZero) eqn:EZ; [apply a_eqb_eq in EZ; subst; exists AZero; cbn; repeat split; now field|].
    destruct (Reqb c 1) eqn:E1; [apply Reqb_eq in E1; subst; exists f; repeat split; [exact D|field]|].
    assert (K : forall v, Forall rP v -> dom (ASum (r_vdiv v c)) /\ evR (ASum (r_vdiv v c)) = tot Rplus 0 rphi v / c).
    { intros v F. destruct (r_vdiv_spec c v Hc F) as (A & B). split; [now apply dom_sum|]. now rewrite ev_sum, B. }
    eexists. split; [reflexivity|]. destruct (r_from_spec f D) as (A & B). destruct (K _ A) as (K1 & K2). rewrite B in K2. destruct f; try (split; [exact K1|exact K2]). apply dom_sum in D. now apply K.
  Qed.
  Definition rsum (l : list R) : R := fold_right Rplus 0 l.
  Lemma a_sum_spec l : Forall dom l -> exists h, a_sum l = Some h /\ dom h /\ evR h = rsum (map evR l).
  Proof.
    intros F. unfold a_sum. set (l' := filter _ l).
    assert (K : Forall rP (concat (map summand l')) /\ tot Rplus 0 rphi (concat (map summand l')) = rsum (map evR l)).
    { unfold l'. clear l'. induction F as [|f l D F (IH1 & IH2)]; [split; [constructor|reflexivity]|]. cbn [filter map rsum fold_right]. fold (rsum (map evR l)). destruct (a_eqb f AZero) eqn:E; cbn [negb].
      - apply a_eqb_eq in E. subst f. split; [exact IH1|]. rewrite IH2. cbn. ring.
      - cbn [map concat]. destruct (summand_spec f D) as (A & B). split; [apply Forall_app; auto|]. now rewrite rtot_app, B, IH2. }
    destruct K as (K1 & K2). destruct (r_sum_spec _ K1) as (out & E & A & B). rewrite E. cbn [obind]. eexists. split; [reflexivity|]. rewrite K2 in B.
    destruct out as [|[c f] [|p out]].
    - cbn in B. split; [exact I|exact B].
    - inversion A as [|? ? D _]; subst. destruct (a_smul_spec f c D) as (H1 & H2). split; [exact H1|]. rewrite H2, <- B. unfold tot, rphi. cbn. ring.
    - split; [now apply dom_sum|exact B].
  Qed.
  Lemma a_add_spec f g : dom f -> dom g -> exists h, a_add f g = Some h /\ dom h /\ evR h = evR f + evR g.
  Proof. intros Df Dg. destruct (a_sum_spec [f; g]) as (h & E & D & V); [auto|]. exists h. split; [exact E|]. split; [exact D|]. rewrite V. cbn. ring. Qed.
  Lemma a_sub_spec f g : dom f -> dom g -> exists h, a_sub f g = Some h /\ dom h /\ evR h = evR f - evR g.
  Proof.
    intros Df Dg.
    assert (K : forall v w, Forall rP v -> Forall rP w -> exists out, r_sum [v; w] = Some out /\ dom (ASum out) /\ evR (ASum out) = tot Rplus 0 rphi v + tot Rplus 0 rphi w).
    { intros v w Fv Fw. destruct (r_sum_spec [v; w]) as (out & E & A & B); [cbn; rewrite app_nil_r; apply Forall_app; auto|]. exists out. split; [exact E|]. split; [now apply dom_sum|]. rewrite ev_sum, B. cbn [concat]. now rewrite app_nil_r, rtot_app. }
    destruct (r_from_spec f Df) as (F1 & F2). destruct (r_from_spec g Dg) as (G1 & G2). destruct (r_neg_spec _ G1) as (G3 & G4). rewrite G2 in G4.
    assert (KV : forall v, dom (ASum v) -> Forall rP v /\ Forall rP (r_neg v) /\ tot Rplus 0 rphi (r_neg v) = - evR (ASum v)).
    { intros v D. apply dom_sum in D. destruct (r_neg_spec v D) as (A & B). repeat split; auto. }
    assert (Q : forall o : option (list (R * afn)), (exists out, o = Some out /\ dom (ASum out) /\ evR (ASum out) = evR f - evR g) -> exists h, (do out <- o; Some (ASum out)) = Some h /\ dom h /\ evR h = evR f - evR g).
    { intros o (out & -> & H). exists (ASum out). cbn. split; [reflexivity|exact H]. }
    unfold a_sub. apply Q.
    assert (K1 : exists out, r_sum [r_from f; r_neg (r_from g)] = Some out /\ dom (ASum out) /\ evR (ASum out) = evR f - evR g).
    { destruct (K _ _ F1 G3) as (o & A & B & C). exists o. split; [exact A|]. split; [exact B|]. rewrite C, F2, G4. ring. }
    assert (K2 : forall w, g = ASum w -> exists out, r_sum [r_neg w; r_from f] = Some out /\ dom (ASum out) /\ evR (ASum out) = evR f - evR g).
    { intros w ->. destruct (KV w Dg) as (_ & V2 & V3). destruct (K _ _ V2 F1) as (o & A & B & C). exists o. split; [exact A|]. split; [exact B|]. rewrite C, F2, V3. ring. }
    assert (K3 : forall v, f = ASum v -> exists out, r_sum [v; r_neg (r_from g)] = Some out /\ dom (ASum out) /\ evR (ASum out) = evR f - evR g).
    { intros v ->. destruct (KV v Df) as (V1 & _). destruct (K _ _ V1 G3) as (o & A & B & C). exists o. split; [exact A|]. split; [exact B|]. rewrite C, G4. rewrite (ev_sum v). ring. }
    assert (K4 : forall v w, f = ASum v -> g = ASum w -> exists out, r_sum [v; r_neg w] = Some out /\ dom (ASum out) /\ evR (ASum out) = evR f - evR g).
    { intros v w -> ->. destruct (KV v Df) as (V1 & _). destruct (KV w Dg) as (_ & W2 & W3). destruct (K _ _ V1 W2) as (o & A & B & C). exists o. split; [exact A|]. split; [exact B|]. rewrite C, W3. rewrite (ev_sum v). ring. }
    destruct f; destruct g; first [exact (K4 _ _ eq_refl eq_refl)|exact (K3 _ eq_refl)|exact (K2 _ eq_refl)|exact K1].
  Qed.
  Lemma a_neg_spec f : dom f -> dom (a_neg f) /\ evR (a_neg f) = - evR f.
  Proof.
    intros D. unfold a_neg. assert (K : forall v, Forall rP v -> dom (ASum (r_neg v)) /\ evR (ASum (r_neg v)) = - tot Rplus 0 rphi v) by (intros v F; destruct (r_neg_spec v F) as (A & B); split; [now apply dom_sum|exact B]).
    destruct (r_from_spec f D) as (A & B). destruct (K _ A) as (K1 & K2). rewrite B in K2. destruct f; try (split; [exact K1|exact K2]). apply dom_sum in D. now apply K.
  Qed.
  Lemma z_vmul_spec e v : (e <> 0)%Z -> Forall zP v -> ((e < 0)%Z -> tot Rmult 1 zphi v <> 0) -> Forall zP (z_vmul v e) /\ tot Rmult 1 zphi (z_vmul v e) = powerRZ (tot Rmult 1 zphi v) e.
  Proof.
    intros He F. unfold z_vmul. replace (e =? 0)%Z with false by (symmetry; now apply Z.eqb_neq).
    induction F as [|[a f] v [D Ha] F IH]; cbn [map tot fold_right]; intros HN; [split; [constructor|now rewrite powerRZ_R1]|]. cbn [fst snd] in *. fold (tot Rmult 1 zphi v) in HN.
    assert (N1 : (e < 0)%Z -> evR f <> 0 \/ a = 0%Z).
    { intros H. destruct (Z.eq_dec a 0) as [|Na]; [now right|left]. intros E0. apply (HN H). unfold zphi. cbn [fst snd]. rewrite E0. destruct (Z.ltb_spec a 0); [now destruct (Ha H0)|]. rewrite pow_nat, pow_i by lia. ring. }
    destruct IH as (A & B); [intros H K; apply (HN H); rewrite K; ring|]. split.
    - constructor; [|exact A]. split; [exact D|]. cbn [fst snd]. intros H. destruct (Z.ltb_spec a 0); [now apply Ha|]. destruct (Z.ltb_spec e 0) as [H1|]; [|nia]. destruct (N1 H1); [assumption|nia].
    - fold (tot Rmult 1 zphi (map (fun p => ((fst p * e)%Z, snd p)) v)). fold (tot Rmult 1 zphi v). rewrite B, powerRZ_mult. f_equal. unfold zphi. cbn [fst snd]. symmetry. apply pz_pow.
  Qed.
  Lemma a_powi_spec f e : dom f -> ((e < 0)%Z -> evR f <> 0) -> dom (a_powi f e) /\ evR (a_powi f e) = powerRZ (evR f) e.
  Proof.
    intros D HN. unfold a_powi. destruct (Z.eqb_spec e 1) as [->|]; [split; [exact D|symmetry; apply powerRZ_1]|]. destruct (Z.eqb_spec e 0) as [->|]; [split; [exact I|reflexivity]|].
    assert (K : forall v, Forall zP v -> tot Rmult 1 zphi v = evR f -> dom (AProd (z_vmul v e)) /\ evR (AProd (z_vmul v e)) = powerRZ (evR f) e).
    { intros v F E. destruct (z_vmul_spec e v n0 F) as (A & B); [now rewrite E|]. split; [now apply dom_prod|]. now rewrite ev_prod, B, E. }
    destruct (z_from_spec f D) as (A & B). pose proof (K _ A B) as K'. destruct f; try exact K'. apply dom_prod in D. now apply K.
  Qed.
  Definition rprod (l : list R) : R := fold_right Rmult 1 l.
  Lemma a_prod_spec l : Forall dom l -> exists h, a_prod l = Some h /\ dom h /\ evR h = rprod (map evR l).
  Proof.
    intros F. unfold a_prod. set (l' := filter _ l).
    assert (K : Forall zP (concat (map factor_vec l')) /\ tot Rmult 1 zphi (concat (map factor_vec l')) = rprod (map evR l)).
    { unfold l'. clear l'. induction F as [|f l D F (IH1 & IH2)]; [split; [constructor|reflexivity]|]. cbn [filter map rprod fold_right]. fold (rprod (map evR l)). destruct (a_eqb f AOne) eqn:E; cbn [negb].
      - apply a_eqb_eq in E. subst f. split; [exact IH1|]. rewrite IH2. cbn. ring.
      - cbn [map concat]. destruct (factor_vec_spec f D) as (A & B). split; [apply Forall_app; auto|]. now rewrite ztot_app, B, IH2. }
    destruct K as (K1 & K2). destruct (z_sum_spec _ K1) as (out & E & A & B & C). rewrite E. cbn [obind]. eexists. split; [reflexivity|]. rewrite K2 in B.
    destruct (existsb _ out) eqn:EX.
    - apply existsb_exists in EX. destruct EX as ([e f] & Hin & Ef). cbn [snd] in Ef. apply a_eqb_eq in Ef. subst f. split; [exact I|]. rewrite <- B. cbn [evR].
      rewrite Forall_forall in A, C. destruct (A _ Hin) as [_ He]. specialize (C _ Hin). cbn [fst snd evR] in *. destruct (Z.ltb_spec e 0) as [H|H]; [now destruct (He H)|].
      apply in_split in Hin. destruct Hin as (u & w & ->). rewrite ztot_app. cbn [tot fold_right]. unfold zphi at 2. cbn [fst snd evR]. rewrite pow_nat, pow_i by lia. ring.
    - destruct out as [|[c f] [|p out]].
      + cbn in B. split; [exact I|exact B].
      + inversion A as [|? ? [D He] _]; subst. destruct (a_powi_spec f c D He) as (H1 & H2). split; [exact H1|]. rewrite H2, <- B. change (powerRZ (evR f) c = powerRZ (evR f) c * 1). ring.
      + split; [now apply dom_prod|exact B].
  Qed.
  Lemma a_mul_unfold f g : a_mul f g =
    if a_eqb f AZero || a_eqb g AZero then Some AZero
    else if a_eqb f AOne then Some g
    else if a_eqb g AOne then Some f
    else match f with
         | ASum [(coeff, basis)] => do h <- a_mul basis g; Some (a_smul h coeff)
         | ASum _ => a_prod [f; g]
         | _ => match g with
                | ASum [(coeff, basis)] => do h <- a_mul f basis; Some (a_smul h coeff)
                | _ => a_prod [f; g]
                end
         end.
  Proof. destruct f; destruct g; reflexivity. Qed.
  Lemma a_mul_spec f : forall g, dom f -> dom g -> exists h, a_mul f g = Some h /\ dom h /\ evR h = evR f * evR g.
  Proof.
    assert (SM : forall o c v w, (exists h, o = Some h /\ dom h /\ evR h = v) -> w = v * c -> exists h, (do h <- o; Some (a_smul h c)) = Some h /\ dom h /\ evR h = w).
    { intros o c v w (h & -> & D & <-) ->. cbn [obind]. eexists. split; [reflexivity|]. now apply a_smul_spec. }
    (* what is left after the four easy cases *)
    assert (RED : forall a b o, dom a -> dom b -> ((exists h, a_prod [a; b] = Some h /\ dom h /\ evR h = evR a * evR b) -> exists h, o = Some h /\ dom h /\ evR h = evR a * evR b) ->
      exists h, (if a_eqb a AZero || a_eqb b AZero then Some AZero else if a_eqb a AOne then Some b else if a_eqb b AOne then Some a else o) = Some h /\ dom h /\ evR h = evR a * evR b).
    { intros a b o Da Db H. destruct (a_eqb a AZero) eqn:E1; cbn [orb]; [apply a_eqb_eq in E1; subst; exists AZero; cbn; repeat split; ring|]. destruct (a_eqb b AZero) eqn:E2; [apply a_eqb_eq in E2; subst; exists AZero; cbn; repeat split; ring|].
      destruct (a_eqb a AOne) eqn:E3; [apply a_eqb_eq in E3; subst; exists b; repeat split; [exact Db|cbn; ring]|]. destruct (a_eqb b AOne) eqn:E4; [apply a_eqb_eq in E4; subst; exists a; repeat split; [exact Da|cbn; ring]|].
      apply H. destruct (a_prod_spec [a; b]) as (h & E & D & V); [auto|]. exists h. split; [exact E|]. split; [exact D|]. rewrite V. cbn. ring. }
    assert (ONE : forall c b, dom (ASum [(c, b)]) -> dom b /\ evR (ASum [(c, b)]) = evR b * c) by (intros c b D; split; [apply D|cbn; ring]).
    induction f using afn_induct; intros g; induction g using afn_induct; intros Df Dg; rewrite a_mul_unfold; (apply RED; [exact Df|exact Dg|intros PR]); try exact PR; cbv beta iota;
      (match goal with H : Forall _ ?v |- context [match ?v with _ => _ end] => destruct v as [|[kc kb] [|kq kw]]; try exact PR; inversion H as [|? ? Hb _]; cbn [snd] in Hb end);
      first [destruct (ONE _ _ Df) as (Db & Vb)|destruct (ONE _ _ Dg) as (Db & Vb)]; rewrite Vb; (eapply SM; [first [apply Hb; assumption|apply (Hb ltac:(assumption) ltac:(assumption))]|ring]).
  Qed.
  Lemma a_div_spec f g : dom f -> dom g -> evR g <> 0 -> exists h, a_div f g = Some h /\ dom h /\ evR h = evR f / evR g.
  Proof.
    intros Df Dg N. unfold a_div. destruct (a_powi_spec g (-1) Dg) as (D & V); [auto|]. destruct (a_mul_spec f _ Df D) as (h & E & Dh & Vh). exists h. split; [exact E|]. split; [exact Dh|]. rewrite Vh, V. change (-1)%Z with (- (1))%Z. rewrite pz_opp, powerRZ_1. reflexivity.
  Qed.
End Ev.
