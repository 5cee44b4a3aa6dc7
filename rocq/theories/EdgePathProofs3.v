(** The loop, the left-greedy normal form and its uniqueness. *)
From Coq Require Import List Arith Bool Lia ZifyBool ZifyNat Permutation.
From Verif Require Import PidModel EdgePathModel EdgePathSpec EdgePathProofs EdgePathProofs2.
Import ListNotations.
Open Scope nat_scope.

Lemma inv_word_nil : forall L, inv L -> word L = [] -> L = [] \/ L = [[]].
Proof.
  intros L [_ [->|N]] H; [auto|]. destruct L as [|c L]; [auto|]. inversion N; subst. rewrite word_cons in H.
  apply app_eq_nil in H. destruct H as [_ H]. apply (f_equal (@rev ed)) in H. rewrite rev_involutive in H. contradiction.
Qed.
Lemma reduce_loop_app : forall u v out b, reduce_loop (u ++ v) out b =
  match reduce_loop u out b with Some r => reduce_loop v (fst r) (snd r) | None => None end.
Proof.
  induction u as [|s u IH]; intros v out b; cbn [app reduce_loop]; [reflexivity|].
  destruct (reduce_step out s); cbn [obind]; [apply IH|reflexivity].
Qed.
Lemma step_T : forall out s, inv out -> out <> [] -> exists out' c, reduce_step out s = Some (out', c) /\ inv1 out' /\
  teq (word out') (T s (word out)).
Proof.
  intros out s I N. destruct (reduce_step_spec out s I N) as [(w' & out' & D & R & I' & W)|(D & R & I' & W)].
  - exists out', true. unfold T. rewrite D, W. auto.
  - exists (ins out s), false. unfold T. rewrite D. auto.
Qed.
Lemma loop_spec : forall w out b, inv out ->
  match reduce_loop w out b with
  | Some r => inv (fst r) /\ (w <> [] -> inv1 (fst r)) /\ teq (word (fst r)) (act w (word out))
  | None => exists q x r, w = q ++ x :: r /\ act q (word out) = [] /\ (q = [] -> out = [])
  end.
Proof.
  induction w as [|s w IH]; intros out b I; cbn [reduce_loop].
  - split; [exact I|]. split; [congruence|apply t_refl].
  - destruct (list_eq_dec (list_eq_dec ed_eq_dec) out []) as [->|N].
    + cbn. exists [], s, w. auto.
    + destruct (step_T out s I N) as (out' & c & R & I' & W). rewrite R. cbn [obind fst snd]. specialize (IH out' (b || c) (inv1_inv _ I')).
      cbn [act fold_left]. fold (act w (T s (word out))). destruct (reduce_loop w out' (b || c)) as [r|] eqn:RL.
      * destruct IH as (J1 & J2 & J3). split; [exact J1|]. split.
        -- intros _. destruct w; [|apply J2; discriminate]. cbn in RL. injection RL as <-. exact I'.
        -- eapply t_trans; [exact J3|]. now apply act_teq.
      * destruct IH as (q & x & r & E & A & Q). exists (s :: q), x, r. split; [now rewrite E|]. split; [|discriminate].
        cbn [act fold_left]. fold (act q (T s (word out))). pose proof (act_teq q _ _ W) as K. rewrite A in K.
        apply teq_perm in K. now apply Permutation_nil in K.
Qed.
Lemma loop_stuck : forall q x r out b, inv out -> q <> [] -> act q (word out) = [] -> reduce_loop (q ++ x :: r) out b = None.
Proof.
  intros q x r out b I N A. rewrite reduce_loop_app. pose proof (loop_spec q out b I) as S. destruct (reduce_loop q out b) as [o|]; [|reflexivity].
  destruct S as (S1 & S2 & S3). rewrite A in S3. apply teq_perm, Permutation_sym, Permutation_nil in S3.
  destruct (S2 N) as [_ S4]. destruct (inv_word_nil _ S1 S3) as [E|E].
  - rewrite E. reflexivity.
  - rewrite E in S4. inversion S4; subst. contradiction.
Qed.

Definition insall (u : list ed) (L : path) : path := fold_left ins u L.
Definition foata (u : list ed) : path := insall u [[]].

Lemma loop_nocancel : forall w out b out', inv out -> reduce_loop w out b = Some (out', false) -> Red (word out) ->
  b = false /\ out' = insall w out /\ Red (rev w ++ word out).
Proof.
  induction w as [|s w IH]; intros out b out' I; cbn [reduce_loop].
  - intros H. injection H as <- <-. auto.
  - destruct (list_eq_dec (list_eq_dec ed_eq_dec) out []) as [->|N]; [discriminate|].
    destruct (reduce_step_spec out s I N) as [(w' & o & D & R & I' & W)|(D & R & I' & W)]; rewrite R; cbn [obind fst snd]; intros H Hr.
    + apply IH in H; [|now apply inv1_inv|].
      * destruct H as [H _]. now rewrite orb_true_r in H.
      * apply del_spec in D. apply Red_teq in D; [|exact Hr]. rewrite W. apply D.
    + apply IH in H; [|now apply inv1_inv|].
      * destruct H as (H1 & H2 & H3). rewrite orb_false_r in H1. split; [exact H1|]. split; [exact H2|].
        cbn [rev]. rewrite <- app_assoc. cbn [app]. eapply Red_teq; [|exact H3]. now apply teq_app_l.
      * apply teq_sym in W. apply Red_teq in W; [exact W|]. split; assumption.
Qed.
Lemma Red_app_r : forall u v, Red (u ++ v) -> Red v.
Proof. induction u; cbn [app]; auto. intros v [_ H]. auto. Qed.
Lemma loop_red : forall w out, inv out -> out <> [] -> Red (rev w ++ word out) ->
  reduce_loop w out false = Some (insall w out, false) /\ inv (insall w out) /\ (w <> [] -> inv1 (insall w out)) /\
  teq (word (insall w out)) (rev w ++ word out).
Proof.
  induction w as [|s w IH]; intros out I N H; cbn [reduce_loop rev app].
  - repeat split; auto; try apply I; congruence.
  - cbn [rev] in H. rewrite <- app_assoc in H. cbn [app] in H. pose proof (Red_app_r _ _ H) as [H0 _].
    destruct (reduce_step_spec out s I N) as [(w' & o & D & R & I' & W)|(D & R & I' & W)]; [congruence|].
    rewrite R. cbn [obind fst snd orb].
    destruct (IH (ins out s)) as (J1 & J2 & J3 & J4).
    + now apply inv1_inv.
    + apply ins_ne.
    + eapply Red_teq; [|exact H]. apply teq_app_l. now apply teq_sym.
    + split; [exact J1|]. split; [exact J2|]. split.
      * intros _. destruct w; [exact I'|]. apply J3. discriminate.
      * eapply t_trans; [exact J4|]. rewrite <- app_assoc. cbn [app]. now apply teq_app_l.
Qed.
Lemma inv0 : inv [[]].
Proof. split; [repeat constructor|now left]. Qed.

(** Getting stuck: a proper non-empty prefix is already trivial. *)
Definition stuck (w : list ed) : Prop := exists q x r, w = q ++ x :: r /\ q <> [] /\ homotopic q [].
Lemma NF_nil : forall q, NF q = [] <-> homotopic q [].
Proof.
  intros q. rewrite NF_iff. split; intros H; [rewrite H; apply t_refl|]. apply teq_perm, Permutation_sym, Permutation_nil in H. exact H.
Qed.
Lemma red_not_trivial : forall w, Red (rev w) -> homotopic w [] -> w = [].
Proof.
  intros w H K. apply NF_nil in K. rewrite NF_fixed in K by exact H. apply (f_equal (@rev ed)) in K. now rewrite rev_involutive in K.
Qed.

Theorem reduce_spec : forall p,
  match reduce p with
  | Some r => ~ stuck (concat p) /\ exists u, r = foata u /\ Red (rev u) /\ homotopic (concat p) u
  | None => stuck (concat p)
  end.
Proof.
  intros p. unfold reduce. cbn [reduce_rec]. set (w := concat p).
  pose proof (loop_spec w [[]] false inv0) as S. destruct (reduce_loop w [[]] false) as [[out c]|] eqn:R; cbn [obind fst snd].
  - destruct S as (S1 & S2 & S3). cbn [fst] in *.
    assert (NS : ~ stuck w).
    { intros (q & x & r & E & N & H). rewrite E in R. rewrite (loop_stuck q x r [[]] false inv0 N) in R; [discriminate|]. now apply NF_nil. }
    change (act w (word [[]])) with (NF w) in S3.
    assert (HR : Red (word out)) by (eapply Red_teq; [apply teq_sym, S3|apply NF_red]).
    destruct c.
    + pose proof (loop_red (concat out) [[]] inv0 ltac:(discriminate)) as L. change (word [[]]) with (@nil ed) in L. rewrite app_nil_r in L.
      destruct (L HR) as (L1 & _). rewrite L1. cbn [obind fst snd]. split; [exact NS|]. exists (concat out). split; [reflexivity|]. split; [exact HR|].
      apply teq_rev in S3. unfold word in S3. rewrite rev_involutive in S3. eapply h_trans; [apply NF_hom|]. apply h_sym. now apply teq_homotopic.
    + destruct (loop_nocancel _ _ _ _ inv0 R I) as (_ & E & HR'). split; [exact NS|]. exists w. split; [exact E|]. split; [|apply h_refl].
      change (word [[]]) with (@nil ed) in HR'. now rewrite app_nil_r in HR'.
  - destruct S as (q & x & r & E & A & Q). exists q, x, r. split; [exact E|]. split.
    + intros K. specialize (Q K). discriminate.
    + now apply NF_nil.
Qed.

(** The left-greedy form. *)
Lemma foata_inv : forall u, Red (rev u) -> inv (foata u) /\ (u <> [] -> inv1 (foata u)) /\ teq (word (foata u)) (rev u).
Proof.
  intros u H. destruct (loop_red u [[]] inv0 ltac:(discriminate)) as (_ & A & B & C); [|].
  - change (word [[]]) with (@nil ed). now rewrite app_nil_r.
  - change (word [[]]) with (@nil ed) in C. rewrite app_nil_r in C. auto.
Qed.
Lemma ins_greedy : forall L s, greedy L -> greedy (ins L s).
Proof.
  induction L as [|c B IH]; intros s G; cbn [ins]; [constructor|]. destruct (allc (c :: B) s) eqn:E.
  - inversion G; subst; [constructor|]. constructor; [|assumption]. rewrite Forall_forall in *. intros e He.
    destruct (H1 e He) as (f & Hf & Hs). exists f. split; [apply in_or_app; now left|assumption].
  - assert (GB : greedy B) by (inversion G; subst; [constructor|assumption]). specialize (IH s GB).
    destruct B as [|b B']; cbn [ins] in *.
    + constructor; [|constructor]. cbn [allc forallb] in E. rewrite andb_true_r in E. apply commute_false in E.
      destruct E as (y & Hy & Hs). constructor; [|constructor]. exists y. split; [assumption|]. apply depb_iff. apply depb_iff in Hs. now rewrite depb_sym.
    + inversion G as [| |? ? ? G1 G2]; subst. destruct (allc (b :: B') s) eqn:E2.
      * constructor; [|exact IH]. apply Forall_app. split; [exact G1|]. constructor; [|constructor].
        cbn [allc forallb] in E, E2. fold (allc B' s) in E, E2. rewrite E2, andb_true_r in E. apply commute_false in E.
        destruct E as (y & Hy & Hs). exists y. split; [assumption|]. apply depb_iff. apply depb_iff in Hs. now rewrite depb_sym.
      * constructor; assumption.
Qed.
Lemma insall_greedy : forall u L, greedy L -> greedy (insall u L).
Proof. induction u; cbn [insall fold_left]; intros; auto. apply IHu. now apply ins_greedy. Qed.
Lemma foata_greedy : forall u, greedy (foata u).
Proof. intros. apply insall_greedy. constructor. Qed.

Definition ceq : path -> path -> Prop := Forall2 (@Permutation ed).
Lemma ceq_refl : forall L, ceq L L.
Proof. induction L; constructor; auto. Qed.
Lemma ceq_trans : forall A B C, ceq A B -> ceq B C -> ceq A C.
Proof.
  intros A B C H. revert C. induction H; intros C K; inversion K; subst; constructor; [|now apply IHForall2].
  eapply Permutation_trans; eassumption.
Qed.
Lemma ceq_concat : forall A B, ceq A B -> Permutation (concat A) (concat B).
Proof. induction 1; cbn [concat]; auto. now apply Permutation_app. Qed.
Lemma commute_perm : forall a b s, Permutation a b -> commute a s = commute b s.
Proof.
  intros a b s H. destruct (commute b s) eqn:E.
  - apply commute_iff. rewrite commute_iff in E. intros y Hy. apply E. now rewrite <- H.
  - apply commute_false in E. apply commute_false. destruct E as (y & Hy & Hs). exists y. split; [now rewrite H|assumption].
Qed.
Lemma allc_perm : forall A B s, Permutation (concat A) (concat B) -> allc A s = allc B s.
Proof. intros. rewrite !allc_concat. now apply commute_perm. Qed.
Lemma ins_concat : forall L s, Permutation (concat (ins L s)) (s :: concat L).
Proof.
  induction L as [|c B IH]; intros s; cbn [ins]; [auto|]. destruct (allc _ _); cbn [concat].
  - rewrite <- app_assoc. cbn [app]. symmetry. apply Permutation_middle.
  - rewrite IH. symmetry. apply Permutation_middle.
Qed.
Lemma ins_ceq : forall A B s, ceq A B -> ceq (ins A s) (ins B s).
Proof.
  intros A B s H. induction H as [|a b A B P H IH]; [apply ceq_refl|]. cbn [ins].
  assert (E : allc (a :: A) s = allc (b :: B) s).
  { apply allc_perm. cbn [concat]. apply Permutation_app; [assumption|]. now apply ceq_concat. }
  rewrite E. destruct (allc (b :: B) s); constructor; auto. now apply Permutation_app_tail.
Qed.
Lemma insall_ceq : forall u A B, ceq A B -> ceq (insall u A) (insall u B).
Proof. induction u; cbn [insall fold_left]; intros; auto. apply IHu. now apply ins_ceq. Qed.
Lemma allc_ins : forall L x y, depb x y = false -> allc (ins L x) y = allc L y.
Proof.
  intros L x y D. rewrite !allc_concat. rewrite (commute_perm _ (x :: concat L)) by apply ins_concat.
  rewrite !commute_eq. cbn [forallb]. rewrite depb_sym, D. reflexivity.
Qed.
Lemma ins_comm : forall L x y, depb x y = false -> ceq (ins (ins L x) y) (ins (ins L y) x).
Proof.
  intros L x y D. assert (D' : depb y x = false) by now rewrite depb_sym.
  induction L as [|c B IH].
  - cbn [ins allc forallb]. rewrite !commute_eq. cbn [forallb]. rewrite D, D'. cbn [negb andb app]. constructor; [apply perm_swap|constructor].
  - pose proof (allc_ins (c :: B) x y D) as Ex. pose proof (allc_ins (c :: B) y x D') as Ey. cbn [ins] in *.
    destruct (allc (c :: B) x) eqn:X, (allc (c :: B) y) eqn:Y; cbn [ins]; rewrite ?Ex, ?Ey.
    + constructor; [|apply ceq_refl]. rewrite <- !app_assoc. apply Permutation_app_head. apply perm_swap.
    + apply ceq_refl.
    + apply ceq_refl.
    + constructor; [apply Permutation_refl|exact IH].
Qed.
Lemma insall_app : forall u v L, insall (u ++ v) L = insall v (insall u L).
Proof. intros. apply fold_left_app. Qed.
Lemma insall_teq : forall u v, teq u v -> forall L, ceq (insall (rev u) L) (insall (rev v) L).
Proof.
  induction 1; intros L; cbn [rev].
  - apply ceq_refl.
  - rewrite !insall_app. cbn [insall fold_left]. apply ins_ceq, IHteq.
  - rewrite <- !app_assoc, !insall_app. cbn [app insall fold_left]. apply ins_comm. now rewrite depb_sym.
  - eapply ceq_trans; [apply IHteq1|apply IHteq2].
Qed.
Lemma foata_unique : forall u v, Red (rev u) -> Red (rev v) -> homotopic u v -> ceq (foata u) (foata v).
Proof.
  intros u v Hu Hv H. apply NF_iff in H. rewrite !NF_fixed in H by assumption.
  pose proof (insall_teq _ _ H [[]]) as K. rewrite !rev_involutive in K. exact K.
Qed.
Lemma parallel_perm_teq : forall a b, Permutation a b -> parallel a -> teq a b.
Proof.
  induction 1; intros P; auto.
  - inversion P; subst. auto.
  - inversion P as [|? ? A B]; subst. inversion A; subst. apply t_swap. now apply depb_false.
  - eapply t_trans; [now apply IHPermutation1|]. apply IHPermutation2. eapply parallel_perm; eassumption.
Qed.
Lemma teq_app : forall a b c d, teq a b -> teq c d -> teq (a ++ c) (b ++ d).
Proof. intros. eapply t_trans; [apply teq_app_r; eassumption|now apply teq_app_l]. Qed.
Lemma ceq_teq : forall A B, Forall parallel A -> ceq A B -> teq (concat A) (concat B).
Proof.
  intros A B P H. induction H; cbn [concat]; [apply t_refl|]. inversion P; subst. apply teq_app; [now apply parallel_perm_teq|auto].
Qed.
