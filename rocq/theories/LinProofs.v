(** Proofs about formal sums and merging. *)
From Coq Require Import List Arith ZArith Bool Sorted Permutation Lia.
From Verif Require Import PidModel LinModel LinSpec.
Import ListNotations.
Open Scope nat_scope.

Lemma exact_ideal : exact ideal.
Proof. intros z z' [= <-]. reflexivity. Qed.
Lemma exact_width w : exact (width w).
Proof. intros z z'. unfold width. destruct (_ && _); congruence. Qed.

Lemma total_Z : total_order Z.compare.
Proof.
  split; [|split].
  - intros; apply Z.compare_eq_iff.
  - intros; apply Z.compare_antisym.
  - intros a b c; rewrite !Z.compare_lt_iff; lia.
Qed.
Lemma total_nat : total_order Nat.compare.
Proof.
  split; [|split].
  - intros; apply Nat.compare_eq_iff.
  - intros; apply Nat.compare_antisym.
  - intros a b c; rewrite !Nat.compare_lt_iff; lia.
Qed.

Section Sort.
  Context {T : Type}.
  Variable f : T -> T -> comparison.
  Lemma insert_by_perm x l : Permutation (x :: l) (insert_by f x l).
  Proof.
    induction l as [|y t IH]; cbn; [reflexivity|].
    destruct (f x y); try reflexivity.
    rewrite perm_swap. now rewrite IH.
  Qed.
  Lemma sort_by_perm l : Permutation l (sort_by f l).
  Proof. induction l; cbn; [constructor|]. rewrite <- insert_by_perm. now constructor. Qed.

  Hypothesis ftr : forall a b c, f a b <> Gt -> f b c <> Gt -> f a c <> Gt.
  Hypothesis fopp : forall a b, f a b = Gt -> f b a <> Gt.
  Lemma insert_by_sorted x l : sorted_by f l -> sorted_by f (insert_by f x l).
  Proof.
    unfold sorted_by. induction 1 as [|y t Hs IH Hf]; cbn; [repeat constructor|].
    destruct (f x y) eqn:E.
    1,2: constructor; [now constructor|]; constructor; [congruence|]; eapply Forall_impl; [|exact Hf]; cbn; intros z Hz;
         apply (ftr x y z); congruence.
    constructor; [exact IH|].
    eapply Permutation_Forall; [apply insert_by_perm|]. constructor; [now apply fopp|exact Hf].
  Qed.
  Lemma sort_by_sorted l : sorted_by f (sort_by f l).
  Proof. induction l; cbn; [constructor|]. now apply insert_by_sorted. Qed.
End Sort.

Section MergeP.
  Context {T : Type}.
  Variable f : T -> T -> comparison.
  Fixpoint merge_i (cur : T) (i j : list T) : list T :=
    match i with
    | n :: i' => match f cur n with Lt => cur :: merge_i n i' j | _ => n :: merge_i cur i' j end
    | [] => cur :: j
    end.
  Definition merge_spec (i j : list T) : list T :=
    match j with
    | c :: j' => merge_i c i j'
    | [] => match i with [] => [] | c :: i' => merge_i c i' [] end
    end.

  Lemma collect_j j fuel cur : length j + 1 < fuel ->
    collect f fuel {| m_curr := Some cur; m_i := []; m_j := j |} = Some (cur :: j).
  Proof.
    revert fuel cur; induction j as [|x j IH]; intros [|fuel] cur H; try (cbn in H; lia).
    - destruct fuel; [cbn in H; lia|]. reflexivity.
    - cbn [collect merge_next m_curr m_i m_j]. rewrite IH by (cbn in H; lia). reflexivity.
  Qed.
  Lemma collect_merge i : forall j fuel cur, length i + length j + 1 < fuel ->
    collect f fuel {| m_curr := Some cur; m_i := i; m_j := j |} = Some (merge_i cur i j).
  Proof.
    induction i as [|x i IH]; intros j fuel cur H.
    - apply collect_j. cbn in H; lia.
    - destruct fuel; [lia|]. cbn [collect merge_next m_curr m_i m_j merge_i].
      destruct (f cur x); rewrite IH by (cbn in H; lia); reflexivity.
  Qed.
  Lemma merge_collect_eq i j : merge_collect f i j = Some (merge_spec i j).
  Proof.
    unfold merge_collect, merge_by, merge_spec. destruct j as [|y j].
    - destruct i as [|x i]; [reflexivity|]. apply collect_merge. cbn; lia.
    - apply collect_merge. cbn; lia.
  Qed.
  Lemma merge_i_perm i : forall cur j, Permutation (cur :: i ++ j) (merge_i cur i j).
  Proof.
    induction i as [|x i IH]; intros cur j; cbn; [reflexivity|].
    destruct (f cur x); rewrite <- IH; try reflexivity; apply perm_swap.
  Qed.
  Lemma merge_spec_perm i j : Permutation (i ++ j) (merge_spec i j).
  Proof.
    unfold merge_spec. destruct j as [|y j].
    - rewrite app_nil_r. destruct i; [reflexivity|]. rewrite <- merge_i_perm, app_nil_r. reflexivity.
    - rewrite <- merge_i_perm. symmetry. apply Permutation_middle.
  Qed.

  Hypothesis ftr : forall a b c, f a b <> Gt -> f b c <> Gt -> f a c <> Gt.
  Hypothesis fopp : forall a b, f b a = CompOpp (f a b).
  Lemma merge_i_sorted i : forall cur, sorted_by f i -> sorted_by f (merge_i cur i []).
  Proof.
    unfold sorted_by. induction i as [|x i IH]; intros cur H; cbn; [repeat constructor|].
    inversion H as [|? ? Hs Hf]; subst.
    assert (Hlt : f cur x = Lt -> StronglySorted (fun a b => f a b <> Gt) (cur :: merge_i x i [])).
    { intros E. constructor; [now apply IH|]. eapply Permutation_Forall; [apply merge_i_perm|].
      rewrite app_nil_r. constructor; [congruence|]. eapply Forall_impl; [|exact Hf]. cbn; intros z Hz.
      apply (ftr cur x z); congruence. }
    assert (Hge : f cur x <> Lt -> StronglySorted (fun a b => f a b <> Gt) (x :: merge_i cur i [])).
    { intros E. constructor; [now apply IH|]. eapply Permutation_Forall; [apply merge_i_perm|].
      rewrite app_nil_r. constructor; [|exact Hf]. rewrite fopp. destruct (f cur x); cbn; congruence. }
    destruct (f cur x); [apply Hge|apply Hlt|apply Hge]; congruence.
  Qed.
  Lemma merge_spec_sorted i j : sorted_by f i -> sorted_by f j -> i = [] \/ length j <= 1 -> sorted_by f (merge_spec i j).
  Proof.
    intros Hi Hj [->|H].
    - unfold merge_spec. destruct j; exact Hj.
    - unfold merge_spec. destruct j as [|y [|? ?]]; [|now apply merge_i_sorted|cbn in H; lia].
      destruct i as [|x i]; [constructor|]. apply merge_i_sorted. now inversion Hi.
  Qed.
End MergeP.

Section VecP.
  Context {B : Type}.
  Variable chk : Z -> option Z.
  Variable cmp : B -> B -> comparison.
  Hypothesis Hchk : exact chk.
  Hypothesis Hcmp : total_order cmp.
  Notation coeff := (coeff cmp).
  Notation cc := (@cur_cmp B cmp).

  Lemma cmp_eq a b : cmp a b = Eq <-> a = b. Proof. apply Hcmp. Qed.
  Lemma cmp_opp a b : cmp b a = CompOpp (cmp a b). Proof. apply Hcmp. Qed.
  Lemma cmp_trans a b c : cmp a b = Lt -> cmp b c = Lt -> cmp a c = Lt. Proof. apply Hcmp. Qed.
  Lemma cmp_refl a : cmp a a = Eq. Proof. now apply cmp_eq. Qed.
  Lemma cmp_le_trans a b c : cmp a b <> Gt -> cmp b c <> Gt -> cmp a c <> Gt.
  Proof.
    intros H1 H2. destruct (cmp a b) eqn:E1; [|destruct (cmp b c) eqn:E2|]; try congruence.
    - apply cmp_eq in E1. now subst.
    - apply cmp_eq in E2. subst. congruence.
    - rewrite (cmp_trans a b c); congruence.
  Qed.
  Lemma cmp_lt_le a b c : cmp a b = Lt -> cmp b c <> Gt -> cmp a c = Lt.
  Proof.
    intros H1 H2. destruct (cmp b c) eqn:E; [|now apply (cmp_trans a b c)|congruence].
    apply cmp_eq in E. now subst.
  Qed.
  Lemma cmp_le_lt a b c : cmp a b <> Gt -> cmp b c = Lt -> cmp a c = Lt.
  Proof.
    intros H1 H2. destruct (cmp a b) eqn:E; [|now apply (cmp_trans a b c)|congruence].
    apply cmp_eq in E. now subst.
  Qed.
  Lemma beqb_eq a b : beqb cmp a b = true <-> a = b.
  Proof. unfold beqb. rewrite <- cmp_eq. destruct (cmp a b); split; congruence. Qed.

  Lemma coeff_app v w b : coeff (v ++ w) b = (coeff v b + coeff w b)%Z.
  Proof. induction v as [|[c x] v IH]; cbn; [lia|]. rewrite IH; lia. Qed.
  Lemma coeff_perm v w b : Permutation v w -> coeff v b = coeff w b.
  Proof. induction 1 as [|[? ?]|[? ?] [? ?]|]; cbn; lia. Qed.

  Definition full (c : cursor (B := B)) : list (Z * B) := fst c :: snd c.
  Definition flat (l : list (cursor (B := B))) := flat_map full l.

  Lemma flat_take vs : flat (flat_map take_cursor vs) = concat vs.
  Proof. induction vs as [|[|x v] vs IH]; cbn; [reflexivity|exact IH|]. unfold flat in IH. now rewrite IH. Qed.
  Lemma flat_perm l l' : Permutation l l' -> Permutation (flat l) (flat l').
  Proof. apply Permutation_flat_map. Qed.
  Lemma flat_tails (l : list (cursor (B := B))) : flat (flat_map (fun c => take_cursor (snd c)) l) = flat_map snd l.
  Proof. induction l as [|[c [|x t]] l IH]; cbn; [reflexivity|exact IH|]. unfold flat in IH. now rewrite IH. Qed.

  Lemma leading_spec b (l : list (cursor (B := B))) : Forall (fun c => snd (fst c) = b) (firstn (leading cmp b l) l).
  Proof.
    induction l as [|c t IH]; cbn; [constructor|]. destruct (beqb cmp (snd (fst c)) b) eqn:E; cbn; [|constructor].
    constructor; [now apply beqb_eq|exact IH].
  Qed.
  Lemma leading_le b (l : list (cursor (B := B))) : leading cmp b l <= length l.
  Proof. induction l; cbn; [lia|]. destruct beqb; lia. Qed.
  Lemma leading_pos c t : 1 <= leading cmp (snd (fst c)) (c :: t).
  Proof. cbn. replace (beqb _ _ _) with true; [lia|]. symmetry. now apply beqb_eq. Qed.

  Lemma sum_coeffs_spec b l c r : Forall (fun c => snd (fst c) = b) l -> sum_coeffs (B := B) chk c l = Some r ->
    r = (c + coeff (map fst l) b)%Z.
  Proof.
    revert c; induction l as [|[[c1 b1] t] l IH]; intros c HF; cbn.
    - intros [= <-]; lia.
    - inversion HF; subst. cbn in *. destruct (chk _) eqn:E; cbn; [|discriminate]. apply Hchk in E. subst.
      intros H. apply IH in H; [|assumption]. rewrite cmp_refl. lia.
  Qed.
  Lemma coeff_other b b' (l : list (Z * B)) : Forall (fun c => snd c = b) l -> b <> b' -> coeff l b' = 0%Z.
  Proof.
    intros HF Hne. induction HF as [|[c x] l H HF IH]; cbn; [reflexivity|]. cbn in H; subst.
    destruct (cmp b b') eqn:E; [apply cmp_eq in E; congruence|lia|lia].
  Qed.

  Lemma flat_coeff (l : list (cursor (B := B))) b : coeff (flat l) b = (coeff (map fst l) b + coeff (flat_map snd l) b)%Z.
  Proof.
    induction l as [|[[c x] t] l IH]; cbn; [reflexivity|]. rewrite !coeff_app. unfold flat in IH. rewrite IH. lia.
  Qed.

  Definition step_next (l : list (cursor (B := B))) : list cursor :=
    match l with
    | [] => []
    | c :: _ =>
      let n := leading cmp (snd (fst c)) l in
      merge_spec cc (skipn n l) (sort_by cc (flat_map (fun c => take_cursor (snd c)) (firstn n l)))
    end.

  Lemma sum_loop_S k l : sum_loop chk cmp (S k) l =
    match l with
    | [] => Some []
    | c :: _ =>
      let n := leading cmp (snd (fst c)) l in
      do coeff <- sum_coeffs chk (fst (fst c)) (tl (firstn n l));
      do out <- sum_loop chk cmp k (step_next l);
      Some (if (coeff =? 0)%Z then out else (coeff, snd (fst c)) :: out)
    end.
  Proof.
    destruct l as [|[[c0 b0] t] l]; [reflexivity|]. cbn [sum_loop fst snd step_next].
    destruct (sum_coeffs _ _ _); [|reflexivity]. cbn [obind]. rewrite merge_collect_eq. reflexivity.
  Qed.

  Lemma step_next_flat l b : coeff (flat (step_next l)) b =
    match l with [] => 0%Z | c :: _ =>
      let n := leading cmp (snd (fst c)) l in (coeff (flat l) b - coeff (map fst (firstn n l)) b)%Z end.
  Proof.
    destruct l as [|c l]; [reflexivity|]. cbn [step_next]. set (n := leading _ _ _). cbn zeta.
    rewrite <- (coeff_perm _ _ b (flat_perm _ _ (merge_spec_perm cc _ _))).
    unfold flat at 1. rewrite flat_map_app. fold (flat (skipn n (c :: l))).
    rewrite coeff_app. match goal with |- (_ + coeff (flat_map full ?x) b)%Z = _ => fold (flat x) end.
    rewrite <- (coeff_perm _ _ b (flat_perm _ _ (sort_by_perm cc _))), flat_tails.
    rewrite <- (firstn_skipn n (c :: l)) at 3. unfold flat at 2. rewrite flat_map_app, coeff_app.
    change (flat_map full) with flat. rewrite (flat_coeff (firstn n (c :: l))). lia.
  Qed.

  Lemma lead_coeff c l r n b : n = leading cmp (snd (fst c)) (c :: l) ->
    sum_coeffs chk (fst (fst c)) (tl (firstn n (c :: l))) = Some r ->
    coeff (map fst (firstn n (c :: l))) b = (if beqb cmp (snd (fst c)) b then r else 0)%Z.
  Proof.
    intros En H. pose proof (leading_spec (snd (fst c)) (c :: l)) as HF. rewrite <- En in HF.
    assert (1 <= n) by (subst n; apply leading_pos). clear En. destruct n as [|n]; [lia|]. cbn [firstn tl map] in *.
    destruct c as [[c0 b0] t]. cbn [fst snd coeff] in *. inversion HF; subst.
    apply (sum_coeffs_spec b0) in H; [|assumption]. cbn [LinSpec.coeff]. unfold beqb. destruct (cmp b0 b) eqn:E.
    - apply cmp_eq in E. subst. lia.
    - rewrite (coeff_other b0); [lia| |]. now apply Forall_map. intros ->. rewrite cmp_refl in E; congruence.
    - rewrite (coeff_other b0); [lia| |]. now apply Forall_map. intros ->. rewrite cmp_refl in E; congruence.
  Qed.

  Lemma sum_loop_total fuel : forall l out b, sum_loop chk cmp fuel l = Some out -> coeff out b = coeff (flat l) b.
  Proof.
    induction fuel as [|k IH]; intros l out b; [discriminate|]. rewrite sum_loop_S.
    destruct l as [|c l]; [intros [= <-]; reflexivity|]. cbn zeta.
    destruct (sum_coeffs _ _ _) as [r|] eqn:E; cbn [obind]; [|discriminate].
    destruct (sum_loop _ _ _ _) as [o|] eqn:E2; cbn [obind]; [|discriminate].
    intros [= <-]. apply (IH _ _ b) in E2. rewrite step_next_flat in E2. cbn zeta in E2.
    pose proof (lead_coeff _ _ _ _ b eq_refl E) as HL. unfold cursor in *. cbv zeta in E2. rewrite HL in E2. unfold beqb in E2. destruct (r =? 0)%Z eqn:Er.
    - apply Z.eqb_eq in Er. subst. destruct (cmp _ b); lia.
    - cbn [LinSpec.coeff]. destruct (cmp _ b); lia.
  Qed.

  Lemma sum_loop_nonzero fuel : forall l out, sum_loop chk cmp fuel l = Some out -> Forall (fun x => fst x <> 0%Z) out.
  Proof.
    induction fuel as [|k IH]; intros l out; [discriminate|]. rewrite sum_loop_S.
    destruct l as [|c l]; [intros [= <-]; constructor|]. cbn zeta.
    destruct (sum_coeffs _ _ _) as [r|] eqn:E; cbn [obind]; [|discriminate].
    destruct (sum_loop _ _ _ _) as [o|] eqn:E2; cbn [obind]; [|discriminate].
    intros [= <-]. apply IH in E2. destruct (r =? 0)%Z eqn:Er; [assumption|]. constructor; [|assumption]. cbn. now apply Z.eqb_neq.
  Qed.

  Lemma vsum_total vs u b : vsum chk cmp vs = Some u -> coeff u b = coeff (concat vs) b.
  Proof.
    intros H. apply (sum_loop_total _ _ _ b) in H. rewrite H.
    rewrite <- (coeff_perm _ _ b (flat_perm _ _ (sort_by_perm cc _))). now rewrite flat_take.
  Qed.

  (** size and termination *)
  Definition size (l : list (cursor (B := B))) := length (flat l).
  Lemma length_tails (l : list (cursor (B := B))) : length (flat_map snd l) + length l = length (flat l).
  Proof. induction l as [|[c t] l IH]; cbn; [reflexivity|]. rewrite !app_length. unfold flat in IH. rewrite <- IH. lia. Qed.
  Lemma step_next_size c l : size (step_next (c :: l)) + leading cmp (snd (fst c)) (c :: l) = size (c :: l).
  Proof.
    unfold size. cbn [step_next]. set (n := leading _ _ _). cbn zeta.
    rewrite <- (Permutation_length (flat_perm _ _ (merge_spec_perm cc _ _))).
    unfold flat at 1. rewrite flat_map_app, app_length. change (flat_map full) with flat.
    rewrite <- (Permutation_length (flat_perm _ _ (sort_by_perm cc _))), flat_tails.
    rewrite <- (firstn_skipn n (c :: l)) at 3. unfold flat at 2. rewrite flat_map_app, app_length. change (flat_map full) with flat.
    rewrite <- (length_tails (firstn n (c :: l))). rewrite (firstn_length_le (c :: l) (n := n)) by (subst n; apply leading_le). lia.
  Qed.
  Lemma sum_coeffs_ideal (l : list (cursor (B := B))) : forall c, exists r, sum_coeffs ideal c l = Some r.
  Proof. induction l as [|x l IH]; intros c; cbn; [eauto|apply IH]. Qed.
End VecP.

Section VecQ.
  Context {B : Type}.
  Variable chk : Z -> option Z.
  Variable cmp : B -> B -> comparison.
  Hypothesis Hchk : exact chk.
  Hypothesis Hcmp : total_order cmp.
  Notation cc := (@cur_cmp B cmp).

  Lemma sum_loop_ideal fuel : forall l : list (cursor (B := B)), size l < fuel -> exists u, sum_loop ideal cmp fuel l = Some u.
  Proof.
    induction fuel as [|k IH]; intros l Hl; [lia|]. rewrite (sum_loop_S ideal cmp).
    destruct l as [|c l]; [eauto|]. cbn zeta.
    destruct (sum_coeffs_ideal (tl (firstn (leading cmp (snd (fst c)) (c :: l)) (c :: l))) (fst (fst c))) as [r ->]. cbn [obind].
    destruct (IH (step_next cmp (c :: l))) as [u ->].
    - pose proof (step_next_size cmp c l). pose proof (leading_pos cmp Hcmp c l). unfold cursor in *. lia.
    - cbn [obind]; eexists; reflexivity.
  Qed.
  Lemma vsum_ideal vs : exists u, vsum (B := B) ideal cmp vs = Some u.
  Proof.
    apply sum_loop_ideal. unfold size.
    rewrite <- (Permutation_length (flat_perm _ _ (sort_by_perm cc _))), flat_take. lia.
  Qed.

  (** ordered output *)
  Definition vlt (x y : Z * B) := cmp (snd x) (snd y) = Lt.
  Definition vsorted (v : list (Z * B)) := StronglySorted vlt v.
  Definition step_ok (l : list (cursor (B := B))) : Prop :=
    match l with
    | [] => True
    | c :: _ => let n := leading cmp (snd (fst c)) l in
                skipn n l = [] \/ length (flat_map (fun c => take_cursor (snd c)) (firstn n l)) <= 1
    end.

  Lemma cc_trans : forall a b c : cursor (B := B), cc a b <> Gt -> cc b c <> Gt -> cc a c <> Gt.
  Proof. intros a b c. unfold cur_cmp. apply cmp_le_trans; assumption. Qed.
  Lemma cc_opp : forall a b : cursor (B := B), cc b a = CompOpp (cc a b).
  Proof. intros a b. unfold cur_cmp. apply cmp_opp; assumption. Qed.
  Lemma cc_gt : forall a b : cursor (B := B), cc a b = Gt -> cc b a <> Gt.
  Proof. intros a b H. rewrite cc_opp, H. discriminate. Qed.

  Lemma sorted_skipn n l : sorted_by cc l -> sorted_by cc (skipn n l).
  Proof.
    revert l; induction n as [|n IH]; intros l H; [exact H|]. destruct l; [exact H|]. cbn. apply IH. now inversion H.
  Qed.
  Lemma sorted_firstn n l : sorted_by cc l -> sorted_by cc (firstn n l).
  Proof.
    unfold sorted_by. revert l; induction n as [|n IH]; intros l H; [constructor|]. destruct l; [constructor|]. cbn.
    inversion H as [|? ? H1 H2]; subst. constructor; [now apply IH|]. apply Forall_forall. intros x Hx.
    rewrite Forall_forall in H2. apply H2. rewrite <- (firstn_skipn n l). apply in_or_app. now left.
  Qed.

  Lemma step_next_sorted l : sorted_by cc l -> step_ok l -> sorted_by cc (step_next cmp l).
  Proof.
    intros Hs Hok. destruct l as [|c l]; [constructor|]. cbn [step_next]. cbn zeta.
    apply merge_spec_sorted.
    - apply cc_trans.
    - apply cc_opp.
    - now apply sorted_skipn.
    - apply sort_by_sorted; [apply cc_trans|apply cc_gt].
    - destruct Hok as [H|H]; [now left|right]. rewrite <- (Permutation_length (sort_by_perm cc _)). exact H.
  Qed.

  (** everything still to come after a step is above the emitted basis element *)
  Lemma skip_leading_gt b l : sorted_by cc l -> Forall (fun c => cmp b (snd (fst c)) <> Gt) l ->
    Forall (fun c => cmp b (snd (fst c)) = Lt) (skipn (leading cmp b l) l).
  Proof.
    intros Hs. induction Hs as [|c l Hs IH Hf]; intros HF; [constructor|]. cbn.
    inversion HF; subst. destruct (beqb cmp (snd (fst c)) b) eqn:E; [now apply IH|].
    assert (Hc : cmp b (snd (fst c)) = Lt).
    { destruct (cmp b (snd (fst c))) eqn:E2; [|reflexivity|congruence].
      apply (cmp_eq cmp Hcmp) in E2. exfalso. subst b. rewrite (proj2 (beqb_eq cmp Hcmp _ _)) in E; congruence. }
    constructor; [exact Hc|]. eapply Forall_impl; [|exact Hf]. cbn. intros x Hx.
    apply (cmp_lt_le cmp Hcmp _ (snd (fst c))); assumption.
  Qed.

  Lemma step_next_above c l : sorted_by cc (c :: l) -> Forall (fun c => vsorted (full c)) (c :: l) ->
    Forall (fun x => cmp (snd (fst c)) (snd x) = Lt) (flat (step_next cmp (c :: l))).
  Proof.
    intros Hs HF. cbn [step_next]. cbn zeta. set (n := leading _ _ _).
    eapply Permutation_Forall; [apply flat_perm, merge_spec_perm|]. unfold flat at 1. rewrite flat_map_app.
    change (flat_map full) with (@flat B). apply Forall_app. split.
    - assert (Hg : Forall (fun x => cmp (snd (fst c)) (snd (fst x)) = Lt) (skipn n (c :: l))).
      { apply skip_leading_gt; [exact Hs|]. inversion Hs; subst. constructor; [|assumption]. rewrite cmp_refl by assumption. discriminate. }
      rewrite <- (firstn_skipn n (c :: l)) in HF. apply Forall_app in HF. destruct HF as [_ HF].
      revert HF Hg. generalize (skipn n (c :: l)). intros m HF Hg. unfold flat. apply Forall_flat_map.
      rewrite Forall_forall in *. intros x Hx. specialize (HF x Hx). specialize (Hg x Hx). unfold vsorted, full in *.
      inversion HF as [|? ? H1 H2]; subst. constructor; [exact Hg|]. eapply Forall_impl; [|exact H2].
      intros y Hy. unfold vlt in Hy. now apply (cmp_trans cmp Hcmp _ (snd (fst x))).
    - eapply Permutation_Forall; [apply flat_perm, sort_by_perm|]. rewrite flat_tails.
      pose proof (leading_spec cmp Hcmp (snd (fst c)) (c :: l)) as HL. fold n in HL.
      rewrite <- (firstn_skipn n (c :: l)) in HF. apply Forall_app in HF. destruct HF as [HF _].
      revert HF HL. generalize (firstn n (c :: l)). intros m HF HL. apply Forall_flat_map.
      rewrite Forall_forall in *. intros x Hx. specialize (HF x Hx). specialize (HL x Hx). unfold vsorted, full in *.
      inversion HF as [|? ? H1 H2]; subst. rewrite <- HL. exact H2.
  Qed.

  Lemma step_next_vsorted l : Forall (fun c => vsorted (full c)) l -> Forall (fun c => vsorted (full c)) (step_next cmp l).
  Proof.
    intros HF. destruct l as [|c l]; [constructor|]. cbn [step_next]. cbn zeta. set (n := leading _ _ _).
    eapply Permutation_Forall; [apply merge_spec_perm|]. rewrite <- (firstn_skipn n (c :: l)) in HF. apply Forall_app in HF.
    apply Forall_app. split; [apply HF|]. eapply Permutation_Forall; [apply sort_by_perm|]. apply Forall_flat_map.
    destruct HF as [HF _]. eapply Forall_impl; [|exact HF]. intros [x t] H. inversion H; subst. cbn.
    destruct t; constructor; [|constructor]. assumption.
  Qed.

  Lemma sum_loop_incl fuel : forall l out, sum_loop chk cmp fuel l = Some out ->
    forall x, In x (map snd out) -> In x (map snd (flat l)).
  Proof.
    induction fuel as [|k IH]; intros l out; [discriminate|]. rewrite (sum_loop_S chk cmp).
    destruct l as [|c l]; [intros [= <-] x []|]. cbn zeta.
    destruct (sum_coeffs _ _ _) as [r|] eqn:E; cbn [obind]; [|discriminate].
    destruct (sum_loop _ _ _ _) as [o|] eqn:E2; cbn [obind]; [|discriminate].
    intros [= <-] x Hx.
    assert (Hin : forall y, In y (map snd o) -> In y (map snd (flat (c :: l)))).
    { intros y Hy. apply (IH _ _ E2) in Hy. revert Hy. cbn [step_next]. cbn zeta. set (n := leading _ _ _).
      rewrite in_map_iff. intros (z & <- & Hz).
      apply (Permutation_in _ (Permutation_sym (flat_perm _ _ (merge_spec_perm cc _ _)))) in Hz.
      unfold flat in Hz. rewrite flat_map_app in Hz. apply in_map. rewrite <- (firstn_skipn n (c :: l)).
      unfold flat. rewrite flat_map_app. apply in_or_app. apply in_app_or in Hz. destruct Hz as [Hz|Hz]; [now right|left].
      apply (Permutation_in _ (Permutation_sym (flat_perm _ _ (sort_by_perm cc _)))) in Hz. rewrite flat_tails in Hz.
      apply in_flat_map in Hz. destruct Hz as (q & H1 & H2). apply in_flat_map. exists q. split; [assumption|]. now right. }
    destruct (r =? 0)%Z; [now apply Hin|]. cbn in Hx. destruct Hx as [<-|Hx]; [|now apply Hin]. left. reflexivity.
  Qed.

  Variable P : list (cursor (B := B)) -> Prop.
  Hypothesis P_ok : forall l, P l -> step_ok l.
  Hypothesis P_step : forall l, P l -> P (step_next cmp l).

  Lemma sum_loop_sorted fuel : forall l out, P l -> sorted_by cc l -> Forall (fun c => vsorted (full c)) l ->
    sum_loop chk cmp fuel l = Some out -> vsorted out.
  Proof.
    induction fuel as [|k IH]; intros l out HP Hs HF; [discriminate|]. rewrite (sum_loop_S chk cmp).
    destruct l as [|c l]; [intros [= <-]; constructor|]. cbn zeta.
    destruct (sum_coeffs _ _ _) as [r|] eqn:E; cbn [obind]; [|discriminate].
    destruct (sum_loop _ _ _ _) as [o|] eqn:E2; cbn [obind]; [|discriminate].
    intros [= <-]. assert (vsorted o).
    { eapply IH; [| | |exact E2]; [now apply P_step|apply step_next_sorted; auto|now apply step_next_vsorted]. }
    destruct (r =? 0)%Z; [assumption|]. constructor; [assumption|]. apply Forall_forall. intros x Hx.
    pose proof (sum_loop_incl _ _ _ E2 (snd x) (in_map snd _ _ Hx)) as Hi. apply in_map_iff in Hi. destruct Hi as (y & Hy & Hi).
    pose proof (step_next_above c l Hs HF) as Ha. rewrite Forall_forall in Ha. unfold vlt. cbn. rewrite <- Hy. now apply Ha.
  Qed.

  Lemma vsum_canonical vs u : P (sort_by cc (flat_map take_cursor vs)) -> Forall vsorted vs ->
    vsum chk cmp vs = Some u -> canonical_vec cmp u.
  Proof.
    intros HP HF H. split.
    - eapply sum_loop_sorted; [exact HP| | |exact H].
      + apply sort_by_sorted; [apply cc_trans|apply cc_gt].
      + eapply Permutation_Forall; [apply sort_by_perm|]. apply Forall_flat_map. eapply Forall_impl; [|exact HF].
        intros [|x t] Hv; cbn; constructor; [exact Hv|constructor].
    - eapply sum_loop_nonzero. exact H.
  Qed.
End VecQ.
