(** Fewest steps, inverses. *)
From Coq Require Import List Arith Bool Lia ZifyBool ZifyNat Permutation.
From Verif Require Import PidModel EdgePathModel EdgePathSpec EdgePathProofs EdgePathProofs2 EdgePathProofs3.
Import ListNotations.
Open Scope nat_scope.

Inductive sub : list ed -> list ed -> Prop :=
| sub_nil : forall w, sub [] w
| sub_skip : forall c x w, sub c w -> sub c (x :: w)
| sub_take : forall c x w, sub c w -> sub (x :: c) (x :: w).
#[local] Hint Constructors sub : core.
Lemma sub_refl : forall w, sub w w.
Proof. induction w; auto. Qed.
Lemma sub_trans : forall a b c, sub a b -> sub b c -> sub a c.
Proof.
  intros a b c H K. revert a H. induction K; intros a H.
  - inversion H; auto.
  - auto.
  - inversion H; subst; auto.
Qed.
Lemma sub_app : forall a b c d, sub a b -> sub c d -> sub (a ++ c) (b ++ d).
Proof. intros a b c d H K. induction H; cbn [app]; auto. induction w; cbn [app]; auto. Qed.
Lemma sub_rev : forall a b, sub a b -> sub (rev a) (rev b).
Proof.
  induction 1; cbn [rev]; auto.
  - rewrite <- (app_nil_r (rev c)). now apply sub_app.
  - apply sub_app; [assumption|apply sub_refl].
Qed.
Lemma sub_in : forall a b x, sub a b -> In x a -> In x b.
Proof. intros a b x H. induction H; cbn [In]; intuition. Qed.
Lemma sub_app_inv : forall u v c, sub c (u ++ v) -> exists a b, c = a ++ b /\ sub a u /\ sub b v.
Proof.
  induction u as [|x u IH]; intros v c H; cbn [app] in H.
  - exists [], c. auto.
  - inversion H; subst.
    + exists [], []. auto.
    + destruct (IH _ _ H2) as (a & b & -> & A & B). exists a, b. auto.
    + destruct (IH _ _ H2) as (a & b & -> & A & B). exists (x :: a), b. auto.
Qed.

Fixpoint Linked (c : list ed) : Prop :=
  match c with x :: (y :: _) as r => depb x y = true /\ Linked r | _ => True end.
Lemma Linked_tail : forall x c, Linked (x :: c) -> Linked c.
Proof. intros x [|y c]; cbn; tauto. Qed.
Lemma sub_teq : forall u v, teq u v -> forall c, Linked c -> sub c u -> sub c v.
Proof.
  induction 1; intros c L H1; auto.
  - inversion H1; subst; auto. apply sub_take. apply IHteq; [now apply Linked_tail in L|assumption].
  - inversion H1 as [|? ? ? A|? ? ? A]; subst; auto.
    + inversion A as [|? ? ? B|? ? ? B]; subst; auto.
    + inversion A as [|? ? ? B|? ? ? B]; subst; auto. cbn in L. destruct L as [L _]. congruence.
Qed.
Lemma Linked_snoc : forall c x y, Linked (c ++ [x]) -> depb x y = true -> Linked ((c ++ [x]) ++ [y]).
Proof.
  induction c as [|z c IH]; intros x y L D; cbn [app] in *.
  - cbn. auto.
  - destruct c as [|w c]; cbn [app] in *; [cbn in *; intuition|]. destruct L as [L1 L2]. split; [exact L1|]. apply IH; assumption.
Qed.
Lemma Linked_rev : forall c, Linked c -> Linked (rev c).
Proof.
  induction c as [|x c IH]; intros L; cbn [rev]; [exact I|]. destruct c as [|y c]; [exact I|]. cbn [rev] in *. destruct L as [L1 L2].
  apply Linked_snoc; [apply IH, L2|]. now rewrite depb_sym.
Qed.

Lemma greedy_chain : forall L s, greedy (s :: L) -> Forall (fun c => c <> []) (s :: L) ->
  exists e c, In e s /\ Linked (e :: c) /\ sub (e :: c) (concat (s :: L)) /\ length c = length L.
Proof.
  (* From the last step backwards. *)
  assert (forall L s, greedy (s :: L) -> Forall (fun c => c <> []) (s :: L) ->
    exists e c, In e s /\ Linked (e :: c) /\ length c = length L /\
      (forall a b, s = a ++ e :: b -> True) /\ Forall2 (fun x col => In x col) c L) as H.
  { induction L as [|t L IH]; intros s G N.
    - inversion N as [|? ? N1 _]; subst. destruct s as [|e s]; [contradiction|]. exists e, []. cbn. repeat split; auto.
    - inversion G as [| |? ? ? G1 G2]; subst. inversion N as [|? ? N1 N2]; subst.
      destruct (IH t G2 N2) as (e & c & He & Hl & Hlen & _ & Hf). rewrite Forall_forall in G1.
      destruct (G1 e He) as (f & Hf1 & Hs). exists f, (e :: c). split; [exact Hf1|]. split.
      + split; [now apply depb_iff|exact Hl].
      + split; [cbn; lia|]. split; [auto|]. constructor; assumption. }
  intros L s G N. destruct (H L s G N) as (e & c & He & Hl & Hlen & _ & Hf). exists e, c. split; [exact He|]. split; [exact Hl|]. split; [|exact Hlen].
  assert (forall c L, Forall2 (fun x col => In x col) c L -> sub c (concat L)) as K.
  { clear. induction 1 as [|x col c L Hx HF IH]; [constructor|]. cbn [concat]. apply (sub_app [x] col); [|exact IH].
    clear -Hx. induction col as [|y col IHc]; [destruct Hx|]. destruct Hx as [->|Hx]; auto. }
  apply (K (e :: c) (s :: L)). constructor; assumption.
Qed.
Lemma sub_parallel : forall c s, sub c s -> parallel s -> parallel c.
Proof.
  induction 1; intros P; [constructor| |]; inversion P; subst; auto. constructor; auto.
  rewrite Forall_forall in *. intros y Hy. apply H2. eapply sub_in; eassumption.
Qed.
Lemma Linked_app : forall a b, Linked (a ++ b) -> Linked a /\ Linked b.
Proof.
  induction a as [|x a IH]; intros b L; cbn [app] in L; [cbn; auto|]. pose proof (IH b (Linked_tail _ _ L)) as [A B]. split; [|exact B].
  destruct a as [|y a]; [exact I|]. split; [apply L|exact A].
Qed.
Lemma chain_steps : forall q c, Forall parallel q -> Linked c -> sub c (concat q) -> length c <= length q.
Proof.
  induction q as [|s q IH]; intros c P L H; cbn [concat] in H.
  - inversion H. cbn. lia.
  - inversion P; subst. destruct (sub_app_inv _ _ _ H) as (a & b & -> & A & B). apply Linked_app in L. destruct L as [L1 L2].
    specialize (IH b H3 L2 B). apply sub_parallel in A; [|assumption]. rewrite app_length. cbn [length].
    assert (length a <= 1); [|lia]. destruct a as [|x [|y a]]; cbn [length]; [lia|lia|exfalso].
    inversion A as [|? ? A1 A2]; subst. inversion A1; subst. destruct L1 as [L1 _]. apply depb_iff in L1. contradiction.
Qed.
Lemma sub_del : forall x w w', del x w = Some w' -> sub w' w.
Proof.
  induction w as [|y r IH]; cbn [del]; [discriminate|]. intros w'. destruct (depb x y).
  - destruct (ed_eq_dec y (reverse x)); [|discriminate]. intros H. injection H as <-. apply sub_skip, sub_refl.
  - destruct (del x r); [|discriminate]. intros H. injection H as <-. auto.
Qed.
Lemma sub_act : forall p w, sub (act p w) (rev p ++ w).
Proof.
  induction p as [|x p IH]; intros w; cbn [act fold_left rev app]; [apply sub_refl|]. eapply sub_trans; [apply IH|].
  rewrite <- app_assoc. cbn [app]. apply sub_app; [apply sub_refl|]. unfold T. destruct (del x w) eqn:E; [|apply sub_refl].
  apply sub_skip. eapply sub_del, E.
Qed.
Lemma sub_NF : forall p, sub (NF p) (rev p).
Proof. intros p. pose proof (sub_act p []) as H. now rewrite app_nil_r in H. Qed.

Lemma foata_nil : foata [] = [[]].
Proof. reflexivity. Qed.
Lemma foata_steps : forall u q, Red (rev u) -> u <> [] -> Forall parallel q -> homotopic u (concat q) -> length (foata u) <= length q.
Proof.
  intros u q R N P H. destruct (foata_inv u R) as (_ & I & W). destruct (I N) as [_ NE]. pose proof (foata_greedy u) as G.
  destruct (foata u) as [|s L] eqn:F; [cbn; lia|]. destruct (greedy_chain L s G NE) as (e & c & _ & Hl & Hs & Hlen).
  assert (K : length (e :: c) <= length q).
  { apply chain_steps; [exact P|exact Hl|].
    apply sub_rev in Hs. fold (word (s :: L)) in Hs.
    assert (T1 : teq (word (s :: L)) (NF (concat q))).
    { eapply t_trans; [exact W|]. apply NF_iff in H. rewrite (NF_fixed u R) in H. exact H. }
    apply (sub_teq _ _ T1) in Hs; [|now apply Linked_rev].
    pose proof (sub_trans _ _ _ Hs (sub_NF (concat q))) as K. apply sub_rev in K. now rewrite !rev_involutive in K. }
  cbn [length] in *. lia.
Qed.

(** Inverses. *)
Lemma inverse_word : forall p, concat (rev (map (@rev ed) (map (map (fun e : ed => (snd e, fst e))) p))) = backwards (concat p).
Proof.
  unfold backwards. induction p as [|s p IH]; cbn [map rev concat]; [reflexivity|]. rewrite map_app, rev_app_distr, <- IH.
  rewrite concat_app. cbn [concat]. now rewrite app_nil_r.
Qed.
Lemma hom_cons_rev : forall e, homotopic [e; reverse e] [].
Proof. intros e. exact (h_cancel [] [] e). Qed.
Lemma backwards_cons : forall x w, backwards (x :: w) = backwards w ++ [reverse x].
Proof. reflexivity. Qed.
Lemma backwards_r : forall w, homotopic (w ++ backwards w) [].
Proof.
  induction w as [|x w IH]; [apply h_refl|]. rewrite backwards_cons. cbn [app]. rewrite app_assoc.
  eapply h_trans; [apply (hom_app [x] [reverse x] _ _ IH)|]. apply hom_cons_rev.
Qed.
Lemma backwards_app : forall u v, backwards (u ++ v) = backwards v ++ backwards u.
Proof. intros. unfold backwards. now rewrite map_app, rev_app_distr. Qed.
Lemma backwards_invol : forall w, backwards (backwards w) = w.
Proof.
  intros w. unfold backwards. rewrite map_rev, rev_involutive, map_map. rewrite <- (map_id w) at 2. apply map_ext. apply reverse_invol.
Qed.
Lemma backwards_l : forall w, homotopic (backwards w ++ w) [].
Proof. intros w. pose proof (backwards_r (backwards w)) as H. now rewrite backwards_invol in H. Qed.
Lemma backwards_length : forall w, length (backwards w) = length w.
Proof. intros. unfold backwards. now rewrite rev_length, map_length. Qed.
Lemma backwards_hom : forall u v, homotopic u v -> homotopic (backwards u) (backwards v).
Proof.
  intros u v H. apply h_trans with (backwards u ++ (v ++ backwards v)).
  - rewrite <- (app_nil_r (backwards u)) at 1. apply hom_app2; [apply h_refl|apply h_sym, backwards_r].
  - rewrite app_assoc. apply (hom_app2 _ _ [] (backwards v)); [|apply h_refl].
    eapply h_trans; [apply hom_app2; [apply h_refl|apply h_sym, H]|]. apply backwards_l.
Qed.
Lemma hom_cancel_l : forall a b c, homotopic (a ++ b) (a ++ c) -> homotopic b c.
Proof.
  assert (forall a b, homotopic (backwards a ++ a ++ b) b) as K.
  { intros a b. rewrite app_assoc. apply (hom_app2 _ _ [] b); [apply backwards_l|apply h_refl]. }
  intros a b c H. eapply h_trans; [apply h_sym, (K a b)|]. eapply h_trans; [|apply (K a c)]. apply hom_app2; [apply h_refl|exact H].
Qed.
Lemma act_full : forall p w, length (act p w) = length p + length w -> act p w = rev p ++ w.
Proof.
  assert (forall p w, length (act p w) <= length p + length w) as H.
  { induction p as [|x p IH]; intros w; cbn [act fold_left length]; [lia|]. specialize (IH (T x w)). pose proof (T_length x w). unfold act in IH. lia. }
  induction p as [|x p IH]; intros w E; cbn [act fold_left rev app]; [reflexivity|]. cbn [act fold_left length] in E.
  fold (act p (T x w)) in *. pose proof (H p (T x w)). pose proof (T_length x w). rewrite IH by lia.
  assert (length (T x w) = S (length w)) by lia. unfold T in *. destruct (del x w) eqn:D; [apply del_length in D; lia|].
  now rewrite <- app_assoc.
Qed.
Lemma red_of_length : forall w, length w <= length (NF w) -> Red (rev w).
Proof.
  intros w H. pose proof (NF_length w). unfold NF in *. pose proof (act_full w []) as K. cbn [length] in K. rewrite app_nil_r in K.
  rewrite <- K by lia. now apply NF_red.
Qed.
Lemma red_backwards : forall w, Red (rev w) -> Red (rev (backwards w)).
Proof.
  intros w H. apply red_of_length. rewrite backwards_length.
  pose proof (backwards_hom _ _ (NF_hom (backwards w))) as K. rewrite backwards_invol in K. apply NF_min in K.
  rewrite NF_fixed in K by exact H. rewrite backwards_length in K. rewrite !rev_length in K. exact K.
Qed.
Lemma red_not_stuck : forall w, Red (rev w) -> ~ stuck w.
Proof.
  intros w H (q & x & r & E & N & K). apply N. apply red_not_trivial; [|exact K]. rewrite E in H. rewrite rev_app_distr in H.
  now apply Red_app_r in H.
Qed.
Lemma red_suffix : forall u v, Red (rev (u ++ v)) -> Red (rev v).
Proof.
  intros u v H. rewrite rev_app_distr in H. apply red_of_length.
  (* a shorter word for v gives a shorter word for u ++ v *)
  assert (K : homotopic (u ++ v) (u ++ rev (NF v))) by (apply hom_app2; [apply h_refl|apply NF_hom]).
  apply NF_min in K. rewrite NF_fixed in K by (now rewrite rev_app_distr). rewrite rev_length, !app_length, rev_length in K. lia.
Qed.

Lemma foata_word : forall u, Red (rev u) -> homotopic u (concat (foata u)) /\ Red (rev (concat (foata u))).
Proof.
  intros u H. destruct (foata_inv u H) as (_ & _ & W). split.
  - apply h_sym, teq_homotopic. apply teq_rev in W. unfold word in W. now rewrite !rev_involutive in W.
  - eapply Red_teq; [apply teq_sym, W|exact H].
Qed.
Lemma foata_trivial : forall u, Red (rev u) -> homotopic u [] -> foata u = [[]].
Proof. intros u H K. apply red_not_trivial in K; [|exact H]. now subst u. Qed.

Theorem inverse_cancels : forall p q, inverse p = Some q -> forall r, reduce p = Some r ->
  reduce (composed_with p q) = Some [[]].
Proof.
  intros p q Hi r Hr. unfold inverse in Hi. cbv zeta in Hi.
  pose proof (reduce_spec (rev (map (@rev ed) (map (map (fun e : ed => (snd e, fst e))) p)))) as Si. rewrite Hi, inverse_word in Si.
  destruct Si as (_ & u & Eq & Ru & Hu). pose proof (reduce_spec p) as Sp. rewrite Hr in Sp. destruct Sp as (NSp & _).
  destruct (foata_word u Ru) as (Hq & Rq). rewrite <- Eq in Hq, Rq.
  assert (Hpq : homotopic (concat p ++ concat q) []).
  { eapply h_trans; [apply hom_app2; [apply h_refl|]|apply (backwards_r (concat p))]. apply h_sym. eapply h_trans; [exact Hu|exact Hq]. }
  pose proof (reduce_spec (composed_with p q)) as S. unfold composed_with in *. rewrite concat_app in S.
  destruct (reduce (p ++ q)) as [r'|].
  - destruct S as (_ & v & -> & Rv & Hv). f_equal. apply foata_trivial; [exact Rv|]. eapply h_trans; [apply h_sym, Hv|exact Hpq].
  - exfalso. destruct S as (a & x & b & E & Na & Ha).
    assert (exists d, (concat p = a ++ d /\ x :: b = d ++ concat q) \/ (a = concat p ++ d /\ concat q = d ++ x :: b)) as [d [[E1 E2]|[E1 E2]]].
    { revert E. generalize (concat p) (concat q) (x :: b). clear. intros A B C. revert A B C. induction a as [|y a IH]; intros A B C E.
      - exists A. left. split; [reflexivity|]. now rewrite E.
      - destruct A as [|z A]; cbn [app] in E.
        + exists (y :: a). right. auto.
        + injection E as -> E. destruct (IH _ _ _ E) as [d [[E1 E2]|[E1 E2]]]; exists d; [left|right]; subst; auto. }
    + destruct d as [|y d].
      * rewrite app_nil_r in E1. cbn [app] in E2. rewrite E1 in *. assert (concat q = []); [|congruence].
        apply red_not_trivial; [exact Rq|]. eapply h_trans; [|exact Hpq]. apply h_sym.
        apply (hom_app2 _ _ [] (concat q)); [exact Ha|apply h_refl].
      * apply NSp. exists a, y, d. auto.
    + assert (homotopic (x :: b) []) as K.
      { eapply h_trans; [|exact Hpq]. rewrite E2, app_assoc, <- E1. apply h_sym. apply (hom_app2 _ _ [] (x :: b)); [exact Ha|apply h_refl]. }
      rewrite E2 in Rq. apply red_suffix in Rq. apply red_not_trivial in K; [discriminate|exact Rq].
Qed.
Theorem geodesic_inverse : forall p r, reduce p = Some r -> exists q, inverse r = Some q /\ reduce (composed_with r q) = Some [[]].
Proof.
  intros p r H. pose proof (reduce_spec p) as S. rewrite H in S. destruct S as (_ & u & -> & Ru & Hu).
  destruct (foata_word u Ru) as (_ & R).
  assert (exists q, inverse (foata u) = Some q) as [q Hq].
  { pose proof (reduce_spec (rev (map (@rev ed) (map (map (fun e : ed => (snd e, fst e))) (foata u))))) as S. rewrite inverse_word in S.
    change (reduce _) with (inverse (foata u)) in S. destruct (inverse (foata u)) as [q|]; [eauto|]. exfalso. revert S. apply red_not_stuck. now apply red_backwards. }
  assert (exists r, reduce (foata u) = Some r) as [r Hr].
  { pose proof (reduce_spec (foata u)) as S. destruct (reduce (foata u)) as [r|]; [eauto|]. exfalso. revert S. now apply red_not_stuck. }
  exists q. split; [exact Hq|]. eapply inverse_cancels; eassumption.
Qed.
