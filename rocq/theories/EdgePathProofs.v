(** Traces (words up to exchanging disjoint edges), their free reduction and its uniqueness. *)
From Coq Require Import List Arith Bool Lia ZifyBool ZifyNat Permutation.
From Verif Require Import PidModel EdgePathModel EdgePathSpec.
Import ListNotations.
Open Scope nat_scope.

Definition depb (x y : ed) : bool :=
  (fst y =? snd x) || (snd y =? fst x) || (snd y =? snd x) || (fst y =? fst x).
Lemma depb_iff : forall x y, depb x y = true <-> shares x y.
Proof. intros [a b] [c d]. unfold depb, shares. cbn [fst snd]. lia. Qed.
Lemma depb_false : forall x y, depb x y = false <-> disjoint x y.
Proof. intros x y. unfold disjoint. rewrite <- depb_iff. destruct (depb x y); split; congruence. Qed.
Lemma depb_sym : forall x y, depb x y = depb y x.
Proof. intros [a b] [c d]. unfold depb. cbn [fst snd]. lia. Qed.
Lemma depb_rev_l : forall x y, depb (reverse x) y = depb x y.
Proof. intros [a b] [c d]. unfold depb, reverse. cbn [fst snd]. lia. Qed.
Lemma depb_rev_r : forall x y, depb x (reverse y) = depb x y.
Proof. intros x y. rewrite depb_sym, depb_rev_l. apply depb_sym. Qed.
Lemma depb_refl : forall x, depb x x = true.
Proof. intros [a b]. unfold depb. cbn [fst snd]. lia. Qed.
Lemma reverse_invol : forall x, reverse (reverse x) = x.
Proof. intros [a b]. reflexivity. Qed.
Lemma ed_eq_dec : forall x y : ed, {x = y} + {x <> y}.
Proof. decide equality; apply Nat.eq_dec. Qed.

(** Trace equivalence. *)
Inductive teq : list ed -> list ed -> Prop :=
| t_refl : forall u, teq u u
| t_skip : forall e u v, teq u v -> teq (e :: u) (e :: v)
| t_swap : forall e f u, depb e f = false -> teq (e :: f :: u) (f :: e :: u)
| t_trans : forall u v w, teq u v -> teq v w -> teq u w.
#[export] Hint Resolve t_refl t_skip : core.

Lemma teq_sym : forall u v, teq u v -> teq v u.
Proof.
  induction 1; auto.
  - apply t_swap. now rewrite depb_sym.
  - eapply t_trans; eassumption.
Qed.
Lemma teq_app_l : forall w u v, teq u v -> teq (w ++ u) (w ++ v).
Proof. induction w; cbn [app]; auto. Qed.
Lemma teq_app_r : forall u v w, teq u v -> teq (u ++ w) (v ++ w).
Proof.
  intros u v w H. induction H; cbn [app]; auto.
  - now apply t_swap.
  - eapply t_trans; eassumption.
Qed.
Lemma teq_perm : forall u v, teq u v -> Permutation u v.
Proof.
  induction 1; auto.
  - apply perm_swap.
  - eapply Permutation_trans; eassumption.
Qed.
Lemma teq_move : forall x u v, forallb (fun y => negb (depb x y)) u = true -> teq (u ++ x :: v) (x :: u ++ v).
Proof.
  intros x u v. induction u as [|y u IH]; cbn [forallb app]; intros H; [auto|].
  apply andb_true_iff in H. destruct H as [H1 H2].
  eapply t_trans; [apply t_skip, IH, H2|]. apply t_swap.
  rewrite depb_sym. destruct (depb x y); [discriminate|reflexivity].
Qed.
Lemma teq_rev : forall u v, teq u v -> teq (rev u) (rev v).
Proof.
  induction 1; cbn [rev]; auto.
  - now apply teq_app_r.
  - rewrite <- !app_assoc. apply teq_app_l. cbn [app]. apply t_swap. now rewrite depb_sym.
  - eapply t_trans; eassumption.
Qed.

(** Deleting the last letter that does not commute with [x], when it is the reverse of [x] (words are read backwards). *)
Fixpoint del (x : ed) (w : list ed) : option (list ed) :=
  match w with
  | [] => None
  | y :: r => if depb x y then (if ed_eq_dec y (reverse x) then Some r else None)
              else match del x r with Some r' => Some (y :: r') | None => None end
  end.
Definition T (x : ed) (w : list ed) : list ed := match del x w with Some w' => w' | None => x :: w end.

Definition orel (a b : option (list ed)) : Prop :=
  match a, b with Some u, Some v => teq u v | None, None => True | _, _ => False end.

Lemma del_teq : forall x u v, teq u v -> orel (del x u) (del x v).
Proof.
  intros x u v H. induction H.
  - unfold orel. destruct (del x u); auto.
  - cbn [del]. destruct (depb x e).
    + destruct (ed_eq_dec e (reverse x)); cbn; auto.
    + destruct (del x u), (del x v); cbn in *; auto; contradiction.
  - cbn [del]. destruct (depb x e) eqn:E, (depb x f) eqn:F.
    + destruct (ed_eq_dec e (reverse x)) as [->|], (ed_eq_dec f (reverse x)) as [->|]; cbn; auto.
      * rewrite depb_rev_l in H. congruence.
      * rewrite depb_rev_r, depb_sym in H. congruence.
    + destruct (ed_eq_dec e (reverse x)); cbn; auto.
    + destruct (ed_eq_dec f (reverse x)); cbn; auto.
    + destruct (del x u); cbn; auto. now apply t_swap.
  - destruct (del x u), (del x v), (del x w); cbn in *; auto; try contradiction. eapply t_trans; eassumption.
Qed.
Lemma del_spec : forall x w w', del x w = Some w' -> teq w (reverse x :: w').
Proof.
  induction w as [|y r IH]; cbn [del]; [discriminate|]. intros w'. destruct (depb x y) eqn:E.
  - destruct (ed_eq_dec y (reverse x)) as [->|]; [|discriminate]. intros H. injection H as <-. auto.
  - destruct (del x r) as [r'|]; [|discriminate]. intros H. injection H as <-.
    eapply t_trans; [apply t_skip, IH; reflexivity|]. apply t_swap. rewrite depb_rev_r, depb_sym. exact E.
Qed.
Lemma del_length : forall x w w', del x w = Some w' -> length w = S (length w').
Proof. intros x w w' H. apply del_spec, teq_perm, Permutation_length in H. exact H. Qed.

Lemma T_teq : forall x u v, teq u v -> teq (T x u) (T x v).
Proof.
  intros x u v H. unfold T. pose proof (del_teq x _ _ H) as K. destruct (del x u), (del x v); cbn in K; auto; contradiction.
Qed.

Fixpoint Red (w : list ed) : Prop := match w with [] => True | y :: r => del y r = None /\ Red r end.
Lemma Red_teq : forall u v, teq u v -> Red u -> Red v.
Proof.
  induction 1; cbn [Red]; auto.
  - intros [A B]. split; [|auto]. pose proof (del_teq e _ _ H) as K. rewrite A in K. destruct (del e v); [contradiction|reflexivity].
  - cbn [del]. rewrite H, (depb_sym f e), H. intros (A & B & C). rewrite B. destruct (del e u); [discriminate|]. auto.
Qed.
Lemma T_red : forall x w, Red w -> Red (T x w).
Proof.
  intros x w H. unfold T. destruct (del x w) eqn:E; [|split; assumption].
  apply del_spec in E. apply Red_teq in E; [|exact H]. apply E.
Qed.
Lemma T_inv : forall x w, Red w -> teq (T (reverse x) (T x w)) w.
Proof.
  intros x w H. unfold T at 2. destruct (del x w) as [w'|] eqn:E.
  - apply del_spec in E. pose proof (Red_teq _ _ E H) as [K _]. unfold T. rewrite K. now apply teq_sym.
  - unfold T. cbn [del]. rewrite depb_rev_l, depb_refl, reverse_invol.
    destruct (ed_eq_dec x x); [auto|contradiction].
Qed.
Lemma del_del : forall x y w w', depb x y = false -> del y w = Some w' ->
  del x w' = match del x w with Some u => del y u | None => None end.
Proof.
  intros x y w w' D. revert w'. induction w as [|z r IH]; cbn [del]; [discriminate|]. intros w'. destruct (depb y z) eqn:E.
  - destruct (ed_eq_dec z (reverse y)) as [->|]; [|discriminate]. intros H. injection H as <-.
    rewrite depb_rev_r, D. destruct (del x r) eqn:F; [|reflexivity]. cbn [del].
    rewrite depb_rev_r, depb_refl. destruct (ed_eq_dec (reverse y) (reverse y)); congruence.
  - destruct (del y r) as [r'|] eqn:F; [|discriminate]. intros H. injection H as <-. specialize (IH _ eq_refl).
    cbn [del]. destruct (depb x z) eqn:G.
    + destruct (ed_eq_dec z (reverse x)) as [->|]; [|reflexivity]. now rewrite F.
    + rewrite IH. destruct (del x r) eqn:K; [|reflexivity]. cbn [del]. now rewrite E.
Qed.
Lemma del_del_none : forall x y w w', depb x y = false -> del y w = Some w' -> (del x w' = None <-> del x w = None).
Proof.
  intros x y w w' D. revert w'. induction w as [|z r IH]; cbn [del]; [discriminate|]. intros w'. destruct (depb y z) eqn:E.
  - destruct (ed_eq_dec z (reverse y)) as [->|]; [|discriminate]. intros H. injection H as <-.
    rewrite depb_rev_r, D. destruct (del x r); split; congruence.
  - destruct (del y r) as [r'|] eqn:F; [|discriminate]. intros H. injection H as <-. specialize (IH _ eq_refl).
    cbn [del]. destruct (depb x z) eqn:G; [destruct (ed_eq_dec z (reverse x)); split; congruence|].
    destruct (del x r), (del x r'); split; try congruence; intros _; [destruct IH as [IH _]|destruct IH as [_ IH]]; now specialize (IH eq_refl).
Qed.
Lemma T_comm : forall x y w, depb x y = false -> teq (T x (T y w)) (T y (T x w)).
Proof.
  intros x y w D. assert (D' : depb y x = false) by now rewrite depb_sym.
  unfold T. destruct (del y w) as [a|] eqn:A; destruct (del x w) as [b|] eqn:B.
  - pose proof (del_del _ _ _ _ D A) as K. rewrite B in K. pose proof (del_del_none _ _ _ _ D A) as M.
    destruct (del y b) eqn:F; rewrite K; [auto|]. exfalso. intuition congruence.
  - pose proof (proj2 (del_del_none _ _ _ _ D A) B) as K. rewrite K. cbn [del]. rewrite D', A. auto.
  - pose proof (proj2 (del_del_none _ _ _ _ D' B) A) as K. rewrite K. cbn [del]. rewrite D, B. auto.
  - cbn [del]. rewrite D, D', A, B. now apply t_swap.
Qed.

(** The action of words on reduced traces. *)
Definition act (p : list ed) (w : list ed) : list ed := fold_left (fun w x => T x w) p w.
Lemma act_app : forall p q w, act (p ++ q) w = act q (act p w).
Proof. intros. apply fold_left_app. Qed.
Lemma act_teq : forall p u v, teq u v -> teq (act p u) (act p v).
Proof. induction p; cbn [act fold_left]; intros; auto. apply IHp. now apply T_teq. Qed.
Lemma act_red : forall p w, Red w -> Red (act p w).
Proof. induction p; cbn [act fold_left]; intros; auto. apply IHp. now apply T_red. Qed.
Lemma act_homotopic : forall p q, homotopic p q -> forall w, Red w -> teq (act p w) (act q w).
Proof.
  induction 1; intros s Hs; auto.
  - rewrite !act_app. cbn [act fold_left]. apply act_teq. fold (act u s). apply T_comm. apply depb_false in H. now rewrite depb_sym.
  - rewrite !act_app. cbn [act fold_left]. apply act_teq. fold (act u s). apply T_inv. now apply act_red.
  - apply teq_sym. auto.
  - apply t_trans with (act v s); auto.
Qed.

Lemma hom_app : forall a b u v, homotopic u v -> homotopic (a ++ u ++ b) (a ++ v ++ b).
Proof.
  intros a b u v H. induction H.
  - pose proof (h_swap (a ++ u) (v ++ b) e f H) as K. repeat (rewrite <- app_assoc in K; cbn [app] in K).
    repeat (rewrite <- app_assoc; cbn [app]). exact K.
  - pose proof (h_cancel (a ++ u) (v ++ b) e) as K. repeat (rewrite <- app_assoc in K; cbn [app] in K).
    repeat (rewrite <- app_assoc; cbn [app]). exact K.
  - apply h_refl.
  - now apply h_sym.
  - eapply h_trans; eassumption.
Qed.
Lemma hom_app2 : forall u v u' v', homotopic u u' -> homotopic v v' -> homotopic (u ++ v) (u' ++ v').
Proof.
  intros u v u' v' H K. apply h_trans with (u' ++ v).
  - pose proof (hom_app [] v _ _ H). cbn [app] in H0. exact H0.
  - pose proof (hom_app u' [] _ _ K). rewrite !app_nil_r in H0. exact H0.
Qed.
Lemma teq_homotopic : forall u v, teq u v -> homotopic u v.
Proof.
  induction 1.
  - apply h_refl.
  - apply (hom_app2 [e] u [e] v); [apply h_refl|assumption].
  - apply (h_swap [] u). now apply depb_false.
  - eapply h_trans; eassumption.
Qed.
Lemma T_homotopic : forall x w, homotopic (rev w ++ [x]) (rev (T x w)).
Proof.
  intros x w. unfold T. destruct (del x w) as [w'|] eqn:E; [|apply h_refl].
  apply del_spec, teq_rev, teq_homotopic in E. cbn [rev] in E.
  eapply h_trans; [apply hom_app2; [exact E|apply h_refl]|].
  rewrite <- app_assoc. cbn [app]. pose proof (h_cancel (rev w') [] (reverse x)) as K. rewrite reverse_invol, app_nil_r in K. exact K.
Qed.
Lemma act_hom : forall p w, homotopic (rev w ++ p) (rev (act p w)).
Proof.
  induction p as [|x p IH]; intros w; cbn [act fold_left].
  - rewrite app_nil_r. apply h_refl.
  - eapply h_trans; [|apply IH]. replace (rev w ++ x :: p) with ((rev w ++ [x]) ++ p) by now rewrite <- app_assoc.
    apply hom_app2; [apply T_homotopic|apply h_refl].
Qed.
Definition NF (p : list ed) : list ed := act p [].
Lemma NF_hom : forall p, homotopic p (rev (NF p)).
Proof. intros p. apply (act_hom p []). Qed.
Lemma NF_red : forall p, Red (NF p).
Proof. intros. now apply act_red. Qed.
Lemma NF_iff : forall p q, homotopic p q <-> teq (NF p) (NF q).
Proof.
  intros p q. split.
  - intros H. now apply act_homotopic.
  - intros H. eapply h_trans; [apply NF_hom|]. eapply h_trans; [|apply h_sym, NF_hom]. now apply teq_homotopic, teq_rev.
Qed.
Lemma act_fixed : forall p w, Red (rev p ++ w) -> act p w = rev p ++ w.
Proof.
  induction p as [|x p IH]; intros w H; cbn [act fold_left rev app]; [reflexivity|].
  cbn [rev] in H. rewrite <- app_assoc in H. cbn [app] in H. fold (act p (T x w)).
  assert (K : T x w = x :: w).
  { unfold T. assert (Red (x :: w)) as [-> _]; [|reflexivity].
    clear IH. revert H. generalize (rev p). induction l; cbn [app]; [auto|]. intros [_ K]. auto. }
  rewrite K. rewrite IH by exact H. now rewrite <- app_assoc.
Qed.
Lemma NF_fixed : forall p, Red (rev p) -> NF p = rev p.
Proof. intros p H. unfold NF. rewrite act_fixed; now rewrite app_nil_r. Qed.
Lemma teq_NF_red : forall w, Red w -> teq (NF (rev w)) w.
Proof. intros w H. rewrite NF_fixed; rewrite rev_involutive; auto. Qed.
Lemma T_length : forall x w, length (T x w) <= S (length w).
Proof. intros. unfold T. destruct (del x w) eqn:E; cbn [length]; [apply del_length in E; lia|lia]. Qed.
Lemma NF_length : forall p, length (NF p) <= length p.
Proof.
  assert (forall p w, length (act p w) <= length p + length w) as H.
  { induction p as [|x p IH]; intros w; cbn [act fold_left length]; [lia|]. specialize (IH (T x w)). pose proof (T_length x w). unfold act in IH. lia. }
  intros p. specialize (H p []). cbn [length] in H. unfold NF. lia.
Qed.
Lemma NF_min : forall p q, homotopic p q -> length (NF p) <= length q.
Proof. intros p q H. apply NF_iff, teq_perm, Permutation_length in H. rewrite H. apply NF_length. Qed.
