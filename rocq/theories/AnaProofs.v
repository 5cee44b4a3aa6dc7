(** Comparison of functions, and what [Vector::sum] preserves. *)
From Coq Require Import List Arith ZArith Bool Reals Lia Permutation Lra.
From Verif Require Import PidModel LinModel LinSpec LinProofs AnaModel.
Import ListNotations.
Open Scope nat_scope.

Section AfnInd.
  Variable P : afn -> Prop.
  Hypothesis HZ : P AZero.
  Hypothesis HO : P AOne.
  Hypothesis HP : forall c, P (AProj c).
  Hypothesis HR : forall f a, P f -> P (ARealPow f a).
  Hypothesis HS : forall f, P f -> P (ASin f).
  Hypothesis HC : forall f, P f -> P (ACos f).
  Hypothesis HSum : forall v, Forall (fun p => P (snd p)) v -> P (ASum v).
  Hypothesis HProd : forall v, Forall (fun p => P (snd p)) v -> P (AProd v).
  Fixpoint afn_rect' (f : afn) : P f :=
    match f with
    | AZero => HZ | AOne => HO | AProj c => HP c
    | ARealPow f a => HR f a (afn_rect' f) | ASin f => HS f (afn_rect' f) | ACos f => HC f (afn_rect' f)
    | ASum v => HSum v ((fix go v : Forall (fun p => P (snd p)) v := match v with [] => Forall_nil _ | p :: t => Forall_cons p (afn_rect' (snd p)) (go t) end) v)
    | AProd v => HProd v ((fix go v : Forall (fun p => P (snd p)) v := match v with [] => Forall_nil _ | p :: t => Forall_cons p (afn_rect' (snd p)) (go t) end) v)
    end.
End AfnInd.
Definition afn_induct := afn_rect'.

Lemma Rcmp_eq a b : Rcmp a b = Eq -> a = b.
Proof. unfold Rcmp. destruct (total_order_T a b) as [[|]|]; now intros. Qed.
Lemma Rcmp_refl a : Rcmp a a = Eq.
Proof. unfold Rcmp. destruct (total_order_T a a) as [[H|]|H]; try reflexivity; destruct (Rlt_irrefl a H). Qed.
Lemma Reqb_eq a b : Reqb a b = true <-> a = b.
Proof. unfold Reqb. destruct (Req_EM_T a b); split; congruence. Qed.
Lemma Reqb_neq a b : Reqb a b = false <-> a <> b.
Proof. unfold Reqb. destruct (Req_EM_T a b); split; congruence. Qed.
Lemma Rltb_lt a b : Rltb a b = true <-> (a < b)%R.
Proof. unfold Rltb. destruct (Rlt_dec a b); split; congruence. Qed.

Lemma vec_cmp_eq {K} (kc : K -> K -> comparison) (v : list (K * afn)) : (forall a b, kc a b = Eq -> a = b) -> Forall (fun p => forall g, a_cmp (snd p) g = Eq -> snd p = g) v ->
  forall w, vec_cmp kc a_cmp v w = Eq -> v = w.
Proof.
  intros HK F. induction F as [|[a f] v Hf F IH]; intros [|[b g] w]; cbn [vec_cmp]; try discriminate; [reflexivity|]. cbn [snd] in Hf.
  destruct (kc a b) eqn:EK; try discriminate. destruct (a_cmp f g) eqn:EF; try discriminate. intros E. now rewrite (HK _ _ EK), (Hf _ EF), (IH _ E).
Qed.
Lemma a_cmp_eq f : forall g, a_cmp f g = Eq -> f = g.
Proof.
  induction f using afn_induct; intros g E; destruct g; cbn [a_cmp tag] in E; try discriminate; try reflexivity.
  - apply Nat.compare_eq in E. now subst.
  - destruct (a_cmp f g) eqn:Ef; try discriminate. now rewrite (IHf _ Ef), (Rcmp_eq _ _ E).
  - now rewrite (IHf _ E).
  - now rewrite (IHf _ E).
  - now rewrite (vec_cmp_eq _ _ Rcmp_eq H _ E).
  - now rewrite (vec_cmp_eq _ _ Z.compare_eq H _ E).
Qed.
Lemma vec_cmp_refl {K} (kc : K -> K -> comparison) (v : list (K * afn)) : (forall a, kc a a = Eq) -> Forall (fun p => a_cmp (snd p) (snd p) = Eq) v -> vec_cmp kc a_cmp v v = Eq.
Proof. intros HK F. induction F as [|[a f] v Hf F IH]; cbn [vec_cmp]; [reflexivity|]. cbn [snd] in Hf. now rewrite HK, Hf. Qed.
Lemma a_cmp_refl f : a_cmp f f = Eq.
Proof.
  induction f using afn_induct; cbn [a_cmp tag]; try reflexivity.
  - apply Nat.compare_refl. - rewrite IHf. apply Rcmp_refl. - exact IHf. - exact IHf. - apply vec_cmp_refl; [apply Rcmp_refl|exact H]. - apply vec_cmp_refl; [apply Z.compare_refl|exact H].
Qed.
Lemma a_eqb_eq f g : a_eqb f g = true <-> f = g.
Proof. unfold a_eqb. split; [destruct (a_cmp f g) eqn:E; try discriminate; intros _; now apply a_cmp_eq|intros ->; now rewrite a_cmp_refl]. Qed.
Lemma a_eqb_neq f g : a_eqb f g = false <-> f <> g.
Proof. rewrite <- a_eqb_eq. destruct (a_eqb f g); split; congruence. Qed.

Section GSum.
  Context {K : Type}.
  Variable kadd : K -> K -> K.
  Variable kzero : K -> bool.
  Notation vec := (list (K * afn)).
  Notation cur := ((K * afn) * list (K * afn))%type.
  (** A commutative monoid and a map compatible with adding coefficients, on the terms that satisfy [P]. *)
  Context {M : Type}.
  Variable op : M -> M -> M.
  Variable e : M.
  Hypothesis op_comm : forall a b, op a b = op b a.
  Hypothesis op_assoc : forall a b c, op a (op b c) = op (op a b) c.
  Hypothesis op_e : forall a, op e a = a.
  Variable P : K * afn -> Prop.
  Variable phi : K * afn -> M.
  Hypothesis phi_add : forall a b f, P (a, f) -> P (b, f) -> P (kadd a b, f) /\ phi (kadd a b, f) = op (phi (a, f)) (phi (b, f)).
  Hypothesis phi_zero : forall a f, P (a, f) -> kzero a = true -> phi (a, f) = e.
  Definition tot (v : vec) : M := fold_right (fun p m => op (phi p) m) e v.
  Lemma tot_app v w : tot (v ++ w) = op (tot v) (tot w).
  Proof. induction v as [|p v IH]; cbn; [now rewrite op_e|]. unfold tot in IH. now rewrite IH, op_assoc. Qed.
  Lemma tot_perm v w : Permutation v w -> tot v = tot w.
  Proof. induction 1 as [|p v w _ IH|p q v|]; [reflexivity| | |congruence]. - cbn. unfold tot in IH. now rewrite IH. - cbn. now rewrite !op_assoc, (op_comm (phi q)). Qed.
  Definition gflat (l : list cur) : vec := flat_map (fun c => fst c :: snd c) l.
  Lemma gflat_take (vs : list vec) : gflat (flat_map g_take vs) = concat vs.
  Proof. induction vs as [|[|x v] vs IH]; cbn; [reflexivity|exact IH|]. unfold gflat in IH. now rewrite IH. Qed.
  Lemma gflat_tails (l : list cur) : gflat (flat_map (fun c => g_take (snd c)) l) = flat_map snd l.
  Proof. unfold gflat. induction l as [|[x [|y t]] l IH]; cbn; [reflexivity|exact IH|now rewrite IH]. Qed.
  Lemma gflat_perm l l' : Permutation l l' -> Permutation (gflat l) (gflat l').
  Proof. apply Permutation_flat_map. Qed.
  Lemma gflat_heads (l : list cur) : Permutation (gflat l) (map fst l ++ flat_map snd l).
  Proof. unfold gflat. induction l as [|[x t] l IH]; cbn; [constructor|]. apply perm_skip. rewrite IH. apply Permutation_app_swap_app. Qed.
  Lemma g_leading_spec b (l : list cur) : Forall (fun c => snd (fst c) = b) (firstn (g_leading b l) l).
  Proof. induction l as [|c l IH]; cbn [g_leading]; [constructor|]. destruct (a_eqb (snd (fst c)) b) eqn:E; cbn [firstn]; [|constructor]. constructor; [now apply a_eqb_eq|exact IH]. Qed.
  Lemma g_leading_pos (c : cur) l : exists k, g_leading (snd (fst c)) (c :: l) = S k.
  Proof. cbn [g_leading]. replace (a_eqb (snd (fst c)) (snd (fst c))) with true by (symmetry; now apply a_eqb_eq). eauto. Qed.
  Lemma lead_sum b (l : list cur) : Forall (fun c => snd (fst c) = b) l -> Forall P (map fst l) -> forall c0, P (c0, b) ->
    let c := fold_left (fun c x => kadd c (fst (fst x))) l c0 in P (c, b) /\ phi (c, b) = op (phi (c0, b)) (tot (map fst l)).
  Proof.
    intros F. induction F as [|[[c f] t] l E F IH]; intros FP c0 H0; cbn [fold_left map fst]; [split; [exact H0|now rewrite op_comm, op_e]|].
    cbn [snd fst] in E. subst f. inversion FP as [|? ? Hc FP']; subst. cbn [fst] in Hc. destruct (phi_add c0 c b H0 Hc) as (Pa & Ea).
    destruct (IH FP' (kadd c0 c) Pa) as (Pr & Er). split; [exact Pr|]. rewrite Er, Ea. cbn. now rewrite op_assoc.
  Qed.
  Lemma g_loop_spec fuel : forall l, length (gflat l) < fuel -> Forall P (gflat l) -> exists out, g_loop kadd kzero fuel l = Some out /\ Forall P out /\ tot out = tot (gflat l) /\ Forall (fun p => kzero (fst p) = false) out.
  Proof.
    induction fuel as [|k IH]; intros l Hl FP; [lia|]. destruct l as [|[[c0 b] t] l]; [exists []; cbn; auto|].
    cbn [g_loop]. set (l0 := ((c0, b), t) :: l) in *. set (n := g_leading b l0). destruct (g_leading_pos ((c0, b), t) l) as (m & En). cbn [fst snd] in En. fold l0 in En. fold n in En.
    rewrite merge_collect_eq. cbn [obind]. set (lead := firstn n l0). set (rest := skipn n l0).
    assert (EL : lead ++ rest = l0) by apply firstn_skipn.
    assert (Elead : lead = ((c0, b), t) :: tl lead) by (unfold lead; rewrite En; reflexivity).
    set (it := merge_spec g_cmp rest (sort_by g_cmp (flat_map (fun c => g_take (snd c)) lead))).
    assert (PI : Permutation (gflat it) (gflat rest ++ flat_map snd lead)).
    { unfold it. rewrite <- (gflat_perm _ _ (merge_spec_perm g_cmp _ _)). unfold gflat at 1. rewrite flat_map_app. fold (gflat rest). apply Permutation_app_head. rewrite <- gflat_tails. apply gflat_perm. symmetry. apply sort_by_perm. }
    assert (P0 : Permutation (gflat l0) (map fst lead ++ gflat it)).
    { rewrite <- EL. unfold gflat at 1. rewrite flat_map_app. fold (gflat lead) (gflat rest). rewrite gflat_heads, PI, <- app_assoc. apply Permutation_app_head. apply Permutation_app_comm. }
    rewrite P0 in FP. apply Forall_app in FP. destruct FP as [FL FI].
    assert (LEN : length (gflat it) < k). { apply Permutation_length in P0. rewrite app_length, map_length in P0. rewrite Elead in P0. cbn [length] in P0. lia. }
    destruct (IH it LEN FI) as (out & E & FO & TO & ZO). fold it. rewrite E. cbn [obind].
    pose proof (g_leading_spec b l0) as LS. fold n in LS. fold lead in LS. rewrite Elead in LS, FL. cbn [map fst] in FL. inversion LS as [|? ? _ LS']; subst. inversion FL as [|? ? H0 FL']; subst.
    destruct (lead_sum b (tl lead) LS' FL' c0 H0) as (Pc & Ec). set (c := fold_left _ _ _) in *. rewrite Elead in P0. cbn [map fst] in P0.
    eexists. split; [reflexivity|]. rewrite (tot_perm _ _ P0). change ((((c0, b) :: map fst (tl lead)) ++ gflat it)) with ([(c0, b)] ++ map fst (tl lead) ++ gflat it). rewrite !tot_app.
    replace (tot [(c0, b)]) with (phi (c0, b)) by (cbn; now rewrite op_comm, op_e). rewrite op_assoc, <- Ec.
    destruct (kzero c) eqn:EZ.
    - split; [exact FO|]. split; [|exact ZO]. now rewrite (phi_zero _ _ Pc EZ), op_e.
    - split; [now constructor|]. split; [|now constructor]. cbn. fold (tot out). now rewrite TO.
  Qed.
  Lemma g_sum_spec vs : Forall P (concat vs) -> exists out, g_sum kadd kzero vs = Some out /\ Forall P out /\ tot out = tot (concat vs) /\ Forall (fun p => kzero (fst p) = false) out.
  Proof.
    intros FP. unfold g_sum. assert (PE : Permutation (gflat (sort_by g_cmp (flat_map g_take vs))) (concat vs)) by (rewrite <- gflat_take; apply gflat_perm; symmetry; apply sort_by_perm).
    destruct (g_loop_spec (S (length (concat vs))) (sort_by g_cmp (flat_map g_take vs))) as (out & E & H1 & H2 & H3).
    - rewrite (Permutation_length PE). lia.
    - now rewrite PE.
    - exists out. rewrite <- (tot_perm _ _ PE). auto.
  Qed.
End GSum.
