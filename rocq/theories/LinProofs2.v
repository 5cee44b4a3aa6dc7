(** Proofs about formal sums: instances of the sum theorem, scaling, indexing, extensionality. *)
From Coq Require Import List Arith ZArith Bool Sorted Permutation Lia.
From Verif Require Import PidModel LinModel LinSpec LinProofs.
Import ListNotations.
Open Scope nat_scope.

Section A.
  Context {B : Type}.
  Variable cmp : B -> B -> comparison.
  Hypothesis Hcmp : total_order cmp.
  Notation cc := (@cur_cmp B cmp).
  Notation cursor := (@cursor B).

  Lemma take_le (l : list cursor) : length (flat_map (fun c => take_cursor (snd c)) l) <= length l.
  Proof. induction l as [|[x [|y t]] l IH]; cbn; lia. Qed.
  Lemma step_next_len (l : list cursor) : length (step_next cmp l) <= length l.
  Proof.
    destruct l as [|c l]; [cbn; lia|]. cbn [step_next]. cbn zeta. set (n := leading _ _ _).
    rewrite <- (Permutation_length (merge_spec_perm cc _ _)), app_length.
    rewrite <- (Permutation_length (sort_by_perm cc _)).
    rewrite <- (firstn_skipn n (c :: l)) at 3. rewrite app_length. pose proof (take_le (firstn n (c :: l))). lia.
  Qed.
  Lemma two_ok (l : list cursor) : length l <= 2 -> step_ok cmp l.
  Proof.
    destruct l as [|c l]; [intros; exact I|]. intros H. cbn [step_ok]. cbn zeta. set (n := leading _ _ _).
    assert (1 <= n) by (subst n; apply leading_pos; assumption).
    destruct (le_lt_dec 2 n).
    - left. apply skipn_all2. cbn in *; lia.
    - right. eapply Nat.le_trans; [apply take_le|]. rewrite firstn_length. lia.
  Qed.
  Lemma nil_tails_ok (l : list cursor) : Forall (fun c => snd c = []) l -> step_ok cmp l.
  Proof.
    destruct l as [|c l]; [intros; exact I|]. intros H. cbn [step_ok]. cbn zeta. set (n := leading _ _ _). right.
    assert (HF : Forall (fun c : cursor => snd c = []) (firstn n (c :: l))).
    { rewrite Forall_forall in *. intros x Hx. apply H. rewrite <- (firstn_skipn n (c :: l)). apply in_or_app. now left. }
    induction HF as [|[x t] m Hx HF IH]; cbn; [lia|]. cbn in Hx; subst. exact IH.
  Qed.
  Lemma nil_tails_step (l : list cursor) : Forall (fun c => snd c = []) l -> Forall (fun c => snd c = []) (step_next cmp l).
  Proof.
    destruct l as [|c l]; [intros; constructor|]. intros H. cbn [step_next]. cbn zeta. set (n := leading _ _ _).
    eapply Permutation_Forall; [apply merge_spec_perm|]. rewrite <- (firstn_skipn n (c :: l)) in H. apply Forall_app in H.
    apply Forall_app. split; [apply H|]. eapply Permutation_Forall; [apply sort_by_perm|]. apply Forall_flat_map.
    destruct H as [H _]. eapply Forall_impl; [|exact H]. intros [x t] Ht. cbn in *; subst. constructor.
  Qed.
  Lemma nodup_ok (l : list cursor) : NoDup (map snd (flat l)) -> step_ok cmp l.
  Proof.
    destruct l as [|c l]; [intros; exact I|]. intros H. cbn [step_ok]. cbn zeta. right.
    eapply Nat.le_trans; [apply take_le|]. rewrite firstn_length.
    enough (leading cmp (snd (fst c)) (c :: l) <= 1) by lia. cbn.
    destruct (beqb cmp (snd (fst c)) (snd (fst c))); [|lia]. destruct l as [|d l]; cbn; [lia|].
    destruct (beqb cmp (snd (fst d)) (snd (fst c))) eqn:E; [|lia]. exfalso. apply beqb_eq in E; [|assumption].
    cbn in H. inversion H as [|? ? Hn _]; subst. apply Hn. rewrite map_app. apply in_or_app. right. left. exact E.
  Qed.
  Lemma nodup_step (l : list cursor) : NoDup (map snd (flat l)) -> NoDup (map snd (flat (step_next cmp l))).
  Proof.
    destruct l as [|c l]; [intros; constructor|]. intros H. cbn [step_next]. cbn zeta. set (n := leading _ _ _).
    eapply Permutation_NoDup; [apply Permutation_map, flat_perm, merge_spec_perm|].
    unfold flat. rewrite flat_map_app, map_app. change (flat_map full) with (@flat B).
    eapply Permutation_NoDup; [apply Permutation_app_head, Permutation_map, flat_perm, sort_by_perm|]. rewrite flat_tails.
    rewrite <- (firstn_skipn n (c :: l)) in H. unfold flat in H. rewrite flat_map_app, map_app in H.
    apply (Permutation_NoDup (Permutation_app_comm _ _)) in H. change (flat_map full) with (@flat B) in H.
    revert H. generalize (map snd (flat (skipn n (c :: l)))) (firstn n (c :: l)). clear.
    intros L l. revert L. induction l as [|[x t] l IH]; intros L H; [exact H|]. cbn in *.
    apply NoDup_remove_1 in H. rewrite map_app in *. 
    apply (Permutation_NoDup (Permutation_app_swap_app _ _ _)). rewrite app_assoc. apply IH.
    rewrite <- app_assoc. apply (Permutation_NoDup (Permutation_app_swap_app _ _ _)) in H. exact H.
  Qed.

  Section Chk.
  Variable chk : Z -> option Z.
  Hypothesis Hchk : exact chk.

  Lemma take_len (vs : list (list (Z * B))) : length (flat_map take_cursor vs) <= length vs.
  Proof. induction vs as [|[|x v] vs IH]; cbn; lia. Qed.

  Lemma vadd_spec v w u : vsorted cmp v -> vsorted cmp w -> vadd chk cmp v w = Some u ->
    canonical_vec cmp u /\ forall b, coeff cmp u b = (coeff cmp v b + coeff cmp w b)%Z.
  Proof.
    intros Hv Hw H. split.
    - eapply (vsum_canonical chk cmp Hcmp (fun l => length l <= 2)); [| | | |exact H].
      + apply two_ok.
      + intros l Hl. pose proof (step_next_len l). lia.
      + rewrite <- (Permutation_length (sort_by_perm cc _)). apply take_len.
      + repeat constructor; assumption.
    - intros b. rewrite (vsum_total chk cmp Hchk Hcmp _ _ b H). cbn. rewrite app_nil_r, coeff_app. reflexivity.
  Qed.
  Lemma vsum_single vs u : Forall (fun v => length v <= 1) vs -> vsum chk cmp vs = Some u -> canonical_vec cmp u.
  Proof.
    intros HF H. eapply (vsum_canonical chk cmp Hcmp (Forall (fun c => snd c = []))); [| | | |exact H].
    - apply nil_tails_ok.
    - apply nil_tails_step.
    - eapply Permutation_Forall; [apply sort_by_perm|]. apply Forall_flat_map. eapply Forall_impl; [|exact HF].
      intros [|x [|y t]] Hl; cbn in Hl; [repeat constructor|repeat constructor|lia].
    - eapply Forall_impl; [|exact HF]. intros [|x [|y t]] Hl; cbn in Hl; [repeat constructor|repeat constructor|lia].
  Qed.
  Lemma vsum_disjoint vs u : NoDup (map snd (concat vs)) -> Forall (vsorted cmp) vs -> vsum chk cmp vs = Some u -> canonical_vec cmp u.
  Proof.
    intros HN HF H. eapply (vsum_canonical chk cmp Hcmp (fun l => NoDup (map snd (flat l)))); [| | | |exact H].
    - apply nodup_ok.
    - apply nodup_step.
    - eapply Permutation_NoDup; [apply Permutation_map, flat_perm, sort_by_perm|]. now rewrite flat_take.
    - exact HF.
  Qed.

  Lemma scale_spec c v u : scale chk c v = Some u ->
    map snd u = map snd v /\ (forall b, coeff cmp u b = (c * coeff cmp v b)%Z) /\
    (c <> 0%Z -> Forall (fun x => fst x <> 0%Z) v -> Forall (fun x => fst x <> 0%Z) u).
  Proof.
    revert u; induction v as [|[s b] v IH]; intros u; cbn.
    - intros [= <-]. repeat split; intros; cbn; try lia. assumption.
    - destruct (chk _) as [s'|] eqn:E; cbn [obind]; [|discriminate]. apply Hchk in E. subst.
      destruct (scale _ _ _) as [t|] eqn:E; cbn [obind]; [|discriminate]. intros [= <-].
      destruct (IH _ eq_refl) as (H1 & H2 & H3). split; [cbn; congruence|]. split.
      + intros x. cbn. rewrite H2. destruct (cmp b x); lia.
      + intros Hc HF. inversion HF; subst. constructor; [cbn in *; nia|auto].
  Qed.
  Lemma vsorted_map v u : map snd v = map snd u -> vsorted cmp v -> vsorted cmp u.
  Proof.
    unfold vsorted. revert u; induction v as [|[s b] v IH]; intros [|[s' b'] u]; cbn; try discriminate; [constructor|].
    intros [= -> H] Hs. inversion Hs as [|? ? H1 H2]; subst. constructor; [now apply IH|].
    apply Forall_forall. intros [c x] Hx. apply (in_map snd) in Hx. rewrite <- H in Hx. apply in_map_iff in Hx.
    destruct Hx as ([c2 x2] & E & Hx). cbn in E; subst. rewrite Forall_forall in H2. apply (H2 _ Hx).
  Qed.
  Lemma scale_canonical c v u : c <> 0%Z -> canonical_vec cmp v -> scale chk c v = Some u -> canonical_vec cmp u.
  Proof.
    intros Hc [H1 H2] H. apply scale_spec in H. destruct H as (E & _ & H). split; [|auto].
    eapply vsorted_map; [symmetry; exact E|exact H1].
  Qed.
  End Chk.

  Lemma coeff_notin (v : list (Z * B)) b : ~ In b (map snd v) -> coeff cmp v b = 0%Z.
  Proof.
    induction v as [|[c x] v IH]; cbn; [reflexivity|]. intros H. rewrite IH by tauto.
    destruct (cmp x b) eqn:E; [|reflexivity|reflexivity]. apply cmp_eq in E; [|assumption]. subst. tauto.
  Qed.
  Lemma vsorted_notin c x (v : list (Z * B)) : vsorted cmp ((c, x) :: v) -> ~ In x (map snd v).
  Proof.
    intros H Hi. inversion H as [|? ? _ HF]; subst. apply in_map_iff in Hi. destruct Hi as (y & <- & Hi).
    rewrite Forall_forall in HF. apply HF in Hi. unfold vlt in Hi. cbn in Hi. rewrite cmp_refl in Hi by assumption. discriminate.
  Qed.
  Lemma vindex_spec v b : canonical_vec cmp v ->
    vindex cmp v b = (if (coeff cmp v b =? 0)%Z then None else Some (coeff cmp v b)).
  Proof.
    intros [Hs Hn]. induction v as [|[c x] v IH]; [reflexivity|]. inversion Hn; subst.
    unfold vindex in *. cbn. destruct (beqb cmp x b) eqn:E.
    - apply beqb_eq in E; [|assumption]. subst. rewrite cmp_refl by assumption.
      rewrite coeff_notin by (eapply vsorted_notin; exact Hs). cbn in *. rewrite Z.add_0_r.
      destruct (c =? 0)%Z eqn:Ec; [lia|reflexivity].
    - unfold beqb in E. destruct (cmp x b); [discriminate| |]; rewrite Z.add_0_l; apply IH; auto; now inversion Hs.
  Qed.
  Lemma coeff_in v c x : vsorted cmp v -> In (c, x) v -> coeff cmp v x = c.
  Proof.
    induction v as [|[d y] v IH]; [intros _ []|]. intros Hs [[= -> ->]|Hi]; cbn.
    - rewrite cmp_refl by assumption. rewrite coeff_notin by (eapply vsorted_notin; exact Hs). lia.
    - destruct (cmp y x) eqn:E.
      + apply cmp_eq in E; [|assumption]. subst. exfalso. apply (vsorted_notin _ _ _ Hs). apply (in_map snd) in Hi. exact Hi.
      + rewrite IH; auto. now inversion Hs.
      + rewrite IH; auto. now inversion Hs.
  Qed.
  Lemma canonical_ext v w : canonical_vec cmp v -> canonical_vec cmp w -> (forall b, coeff cmp v b = coeff cmp w b) -> v = w.
  Proof.
    revert w; induction v as [|[c x] v IH]; intros w [Hs Hn] [Hs' Hn'] He.
    - destruct w as [|[d y] w]; [reflexivity|]. exfalso. specialize (He y). rewrite (coeff_in _ d y Hs') in He by now left.
      inversion Hn'; subst. cbn in *. congruence.
    - inversion Hn; subst. cbn in *. destruct w as [|[d y] w].
      + exfalso. specialize (He x). rewrite cmp_refl, coeff_notin in He by (try assumption; eapply vsorted_notin; exact Hs). cbn in He. lia.
      + inversion Hn'; subst. cbn in *.
        assert (Hgt : forall c x v y, vsorted cmp ((c, x) :: v) -> cmp y x = Lt -> coeff cmp ((c, x) :: v) y = 0%Z).
        { clear - Hcmp. intros c x v y Hs Hl. apply coeff_notin. intros [<-|Hi].
          - cbn in Hl. rewrite cmp_refl in Hl; [discriminate|assumption].
          - inversion Hs as [|? ? _ HF]; subst. apply in_map_iff in Hi. destruct Hi as (z & <- & Hi). rewrite Forall_forall in HF.
            apply HF in Hi. unfold vlt in Hi. cbn in *. rewrite cmp_opp, Hl in Hi by assumption. discriminate. }
        assert (Hxy : x = y).
        { destruct (cmp x y) eqn:E; [now apply cmp_eq in E| |]; exfalso.
          - assert (H := He x). rewrite (cmp_refl cmp Hcmp), coeff_notin in H by (eapply vsorted_notin; exact Hs).
            pose proof (Hgt d y w x Hs' E) as G. cbn in G. lia.
          - assert (E' : cmp y x = Lt) by (rewrite cmp_opp, E by assumption; reflexivity).
            assert (H := He y). rewrite (cmp_refl cmp Hcmp), (coeff_notin w) in H by (eapply vsorted_notin; exact Hs').
            pose proof (Hgt c x v y Hs E') as G. cbn in G. lia. }
        subst y. assert (Hcd : c = d).
        { assert (H := He x). rewrite (cmp_refl cmp Hcmp), !coeff_notin in H by (eapply vsorted_notin; eassumption). lia. }
        subst d. f_equal. apply IH.
        * split; [now inversion Hs|assumption].
        * split; [now inversion Hs'|assumption].
        * intros b. specialize (He b). lia.
  Qed.

  Lemma scale_ideal c (v : list (Z * B)) : exists u, scale ideal c v = Some u.
  Proof. induction v as [|[s b] v [u IH]]; cbn; [eauto|]. rewrite IH. cbn. eauto. Qed.

  (** from lists of basis elements *)
  Lemma vfrom_vec_snd bs : map snd (vfrom_vec cmp bs) = sort_by cmp bs.
  Proof. unfold vfrom_vec. rewrite map_map. cbn. apply map_id. Qed.
  Lemma gt_opp a b : cmp a b = Gt -> cmp b a <> Gt.
  Proof. intros H. rewrite cmp_opp, H by assumption. discriminate. Qed.
  Lemma vfrom_vec_canonical bs : NoDup bs -> canonical_vec cmp (vfrom_vec cmp bs).
  Proof.
    intros Hn. split.
    - assert (Hs : sorted_by cmp (sort_by cmp bs)).
      { apply sort_by_sorted; [apply cmp_le_trans; assumption|apply gt_opp]. }
      apply (Permutation_NoDup (sort_by_perm cmp bs)) in Hn. unfold vfrom_vec. revert Hn Hs. generalize (sort_by cmp bs).
      clear bs. intros l. induction l as [|x l IH]; intros Hn Hs; cbn; [constructor|].
      inversion Hn as [|? ? Hni Hn']; inversion Hs as [|? ? Hs' HF]; subst. constructor; [now apply IH|].
      apply Forall_map. rewrite Forall_forall in *. intros y Hy. cbn. specialize (HF y Hy).
      destruct (cmp x y) eqn:E; [|reflexivity|congruence]. apply cmp_eq in E; [|assumption]. congruence.
    - unfold vfrom_vec. apply Forall_map, Forall_forall. cbn. lia.
  Qed.
  Lemma vfrom_canonical b : canonical_vec cmp (vfrom b).
  Proof. split; repeat constructor. cbn. lia. Qed.
  Lemma vfrom_coeff b x : coeff cmp (vfrom b) x = (match cmp b x with Eq => 1 | _ => 0 end)%Z.
  Proof. cbn. destruct (cmp b x); reflexivity. Qed.
  Lemma vfrom_vec_coeff bs b : coeff cmp (vfrom_vec cmp bs) b = Z.of_nat (length (filter (fun x => beqb cmp x b) bs)).
  Proof.
    rewrite (coeff_perm cmp _ (map (fun b => (1%Z, b)) bs)).
    - induction bs as [|x bs IH]; [reflexivity|]. cbn [map LinSpec.coeff filter]. rewrite IH. unfold beqb at 2.
      destruct (cmp x b); cbn [length]; lia.
    - apply Permutation_map. symmetry. apply sort_by_perm.
  Qed.
  Lemma vremove_canonical v i x u : canonical_vec cmp v -> vremove v i = Some (x, u) -> canonical_vec cmp u.
  Proof.
    unfold vremove. destruct (nth_error v i) eqn:E; [|discriminate]. intros [Hs Hn] [= <- <-].
    clear E. revert i; induction v as [|y v IH]; intros i.
    - destruct i; split; constructor.
    - inversion Hs as [|? ? Hs2 HF]; inversion Hn as [|? ? Hn1 Hn2]; subst. destruct i as [|i]; [split; assumption|]. change (skipn (S (S i)) (y :: v)) with (skipn (S i) v).
        cbn [firstn app]. destruct (IH Hs2 Hn2 i) as [G1 G2]. split; [|constructor; assumption]. constructor; [exact G1|].
      rewrite Forall_forall in *. intros z Hz. apply HF. apply in_app_or in Hz. destruct Hz as [Hz|Hz].
      + rewrite <- (firstn_skipn i v). apply in_or_app. now left.
      + rewrite <- (firstn_skipn (S i) v). apply in_or_app. now right.
  Qed.
End A.
