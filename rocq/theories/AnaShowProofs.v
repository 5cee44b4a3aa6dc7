(** Reading a printed function back. *)
From Coq Require Import String Ascii List ZArith Bool Reals Lia Lra.
From Verif Require Import PidModel AnaModel AnaProofs AnaProofs3 ShowModel ShowProofs AnaShowModel AnaShowSpec.
Import ListNotations.
Open Scope nat_scope.
Open Scope list_scope.

Definition num (c : ascii) : bool := existsb (Ascii.eqb c) (lit "0123456789.-").
Definition nnum (c : ascii) : bool := negb (num c).
Lemma num_in c : In c (lit "0123456789.-") -> num c = true.
Proof. intros H. unfold num. apply existsb_exists. exists c. split; [exact H|apply Ascii.eqb_refl]. Qed.
Lemma nums_split (a b r s : text) : Forall (fun c => num c = true) a -> Forall (fun c => num c = true) b ->
  stops nnum r -> stops nnum s -> a ++ r = b ++ s -> a = b /\ r = s.
Proof.
  revert b. induction a as [|c a IH]; intros [|d b] Fa Fb Sr Ss H; cbn in H.
  - auto.
  - subst r. inversion Fb; subst. cbn in Sr. unfold nnum in Sr. rewrite H1 in Sr. discriminate Sr.
  - subst s. inversion Fa; subst. cbn in Ss. unfold nnum in Ss. rewrite H1 in Ss. discriminate Ss.
  - injection H as E H. inversion Fa; inversion Fb; subst. destruct (IH b) as [P Q]; auto. now subst.
Qed.
Lemma digit_num c : digit c = true -> num c = true.
Proof. unfold digit, num. rewrite !existsb_exists. intros (d & I & E). exists d. split; [|exact E]. cbn in I |- *. tauto. Qed.
Lemma show_Z_num z : Forall (fun c => num c = true) (show_Z z).
Proof.
  assert (D : forall u, Forall (fun c => num c = true) (lit (DecimalString.NilEmpty.string_of_uint u))) by (intros u; eapply Forall_impl; [|apply uint_digits]; intros c; apply digit_num).
  destruct (show_Z_cases z) as [(u & _ & _ & -> & _)|(u & _ & _ & -> & _)]; [apply D|constructor; [reflexivity|apply D]].
Qed.

(** What may follow a function, and what may follow a factor. *)
Definition stop (t : text) : Prop :=
  match t with [] => True | c :: u => c = ")"%char \/ c = ","%char \/ (c = " "%char /\ exists u', u = "+"%char :: u') end.
Definition after (t : text) : Prop :=
  match t with [] => True | c :: _ => c = ")"%char \/ c = ","%char \/ c = " "%char \/ c = "^"%char end.
Definition ahead (c : ascii) : Prop := c = "0"%char \/ c = "1"%char \/ c = "x"%char \/ c = "s"%char \/ c = "c"%char \/ c = "("%char.
Lemma stop_after t : stop t -> after t.
Proof. destruct t as [|c u]; [auto|]. cbn. tauto. Qed.
Lemma after_nnum t : after t -> stops nnum t.
Proof. destruct t as [|c u]; [auto|]. cbn. intros [->|[->|[->| ->]]]; reflexivity. Qed.

Section Read.
  Variable F : R -> Prop.
  Variable sf : R -> text.
  Hypothesis HF : f64_display F sf.
  Notation show := (show_fn sf).
  Notation shs v := (map (fun p => (fst p, show_fn sf (snd p))) v).
  Definition pr (f : afn) : Prop := flat f /\ numbers_in F f.
  Set Default Proof Using "All".

  Lemma sf_num a : F a -> Forall (fun c => num c = true) (sf a).
  Proof. intros H. destruct HF as (_ & _ & K & _). eapply Forall_impl; [|apply (K a H)]. intros c. apply num_in. Qed.
  Lemma sf_split a b r s : F a -> F b -> stops nnum r -> stops nnum s -> sf a ++ r = sf b ++ s -> a = b /\ r = s.
  Proof. intros Ha Hb Sr Ss H. apply nums_split in H; auto using sf_num. destruct H as [H ->]. split; [|reflexivity]. destruct HF as (_ & I & _). now apply I. Qed.

  Lemma pr_sum v : pr (ASum v) <-> Forall (fun p => F (fst p) /\ pr (snd p)) v.
  Proof. unfold pr. cbn. induction v as [|p v IH]; cbn; [split; auto|]. rewrite Forall_cons_iff, <- IH. tauto. Qed.
  Lemma pr_prod v : pr (AProd v) <-> Forall (fun p => (- 2 ^ 31 <= fst p < 2 ^ 31)%Z /\ ~ is_product (snd p) /\ pr (snd p)) v.
  Proof. unfold pr. cbn -[Z.pow Z.opp]. induction v as [|p v IH]; cbn -[Z.pow Z.opp]; [split; auto|]. rewrite Forall_cons_iff, <- IH. tauto. Qed.

  Lemma atom_head f : ~ is_product f -> exists c u, show f = c :: u /\ ahead c.
  Proof.
    unfold ahead. intros N. destruct f; cbn -[show_nat]; try (now destruct N); eexists; eexists; (split; [reflexivity|]); tauto.
  Qed.
  (** The numeric characters at the start. *)
  Lemma span f T : pr f -> stop T -> exists p q, show f ++ T = p ++ q /\ (p = [] \/ p = ["0"%char] \/ p = ["1"%char]) /\ stops (fun c => nnum c && negb (Ascii.eqb c "194"%char)) q.
  Proof.
    intros Pf ST.
    assert (S' : stops (fun c => nnum c && negb (Ascii.eqb c "194"%char)) T) by (destruct T as [|c u]; [exact I|]; cbn in ST |- *; destruct ST as [->|[->|[-> _]]]; reflexivity).
    destruct f as [| |c|f a|f|f|v|v].
    - exists ["0"%char], T. auto.
    - exists ["1"%char], T. auto.
    - exists [], (show (AProj c) ++ T). split; [reflexivity|]. split; [tauto|reflexivity].
    - exists [], (show (ARealPow f a) ++ T). split; [reflexivity|]. split; [tauto|reflexivity].
    - exists [], (show (ASin f) ++ T). split; [reflexivity|]. split; [tauto|reflexivity].
    - exists [], (show (ACos f) ++ T). split; [reflexivity|]. split; [tauto|reflexivity].
    - exists [], (show (ASum v) ++ T). split; [reflexivity|]. split; [tauto|reflexivity].
    - exists [], (show (AProd v) ++ T). split; [reflexivity|]. split; [tauto|]. destruct v as [|p v]; [exact S'|reflexivity].
  Qed.
  Lemma first_split c d f g T U : F c -> F d -> pr f -> pr g -> stop T -> stop U ->
    first_term sf (c, show f) ++ T = first_term sf (d, show g) ++ U -> c = d /\ show f ++ T = show g ++ U.
  Proof.
    intros Fc Fd Pf Pg ST SU H.
    assert (NX : forall (q : text), stops (fun c => nnum c && negb (Ascii.eqb c "194"%char)) q -> stops nnum q /\ forall u, q <> "194"%char :: u).
    { intros [|x q] K; cbn in K |- *; [split; [exact I|discriminate]|]. apply andb_prop in K. destruct K as [K1 K2]. split; [exact K1|]. intros u E. injection E as -> _. discriminate K2. }
    assert (PN : forall p, p = [] \/ p = ["0"%char] \/ p = ["1"%char] -> Forall (fun c => num c = true) p) by (intros p [->|[->| ->]]; repeat constructor).
    assert (A1 : forall a x y (X Y : text), F a -> pr x -> pr y -> stop X -> show x ++ X = (sf a ++ lit "·" ++ show y) ++ Y -> False).
    { intros a x y X Y Fa Px Py SX E. destruct (span x X Px SX) as (p & q & E' & Hp & Hq). rewrite E' in E. rewrite <- !app_assoc in E. destruct (NX q Hq) as [Q1 Q2].
      apply nums_split in E; [|now apply PN|now apply sf_num|exact Q1|reflexivity]. destruct E as [_ E]. cbn in E. now apply Q2 in E. }
    assert (A2 : forall a x y (X Y : text), F a -> pr x -> pr y -> stop X -> (lit "-" ++ show x) ++ X = (sf a ++ lit "·" ++ show y) ++ Y -> False).
    { intros a x y X Y Fa Px Py SX E. destruct (span x X Px SX) as (p & q & E' & Hp & Hq). rewrite <- !app_assoc in E. rewrite E' in E. destruct (NX q Hq) as [Q1 Q2]. rewrite app_assoc in E.
      apply nums_split in E; [|apply Forall_app; split; [repeat constructor|now apply PN]|now apply sf_num|exact Q1|reflexivity]. destruct E as [_ E]. cbn in E. now apply Q2 in E. }
    assert (A3 : forall x y (X Y : text), pr x -> pr y -> stop X -> stop Y -> show x ++ X = (lit "-" ++ show y) ++ Y -> False).
    { intros x y X Y Px Py SX SY E. destruct (span x X Px SX) as (p & q & E' & Hp & Hq). destruct (span y Y Py SY) as (p' & q' & E2 & Hp' & Hq'). rewrite <- !app_assoc in E. rewrite E', E2 in E. rewrite app_assoc in E.
      apply nums_split in E; [|now apply PN|apply Forall_app; split; [repeat constructor|now apply PN]|now apply NX|now apply NX]. destruct E as [E _]. cbn in E. destruct Hp as [->|[->| ->]]; discriminate E. }
    unfold first_term in H. cbn [fst snd] in H.
    destruct (Reqb c 1) eqn:C1; [apply Reqb_eq in C1|destruct (Reqb c (-(1))) eqn:C2; [apply Reqb_eq in C2|]];
      (destruct (Reqb d 1) eqn:D1; [apply Reqb_eq in D1|destruct (Reqb d (-(1))) eqn:D2; [apply Reqb_eq in D2|]]).
    - split; [congruence|exact H].
    - exfalso. eapply A3 in H; eauto.
    - exfalso. eapply A1 in H; eauto.
    - exfalso. symmetry in H. eapply A3 in H; eauto.
    - split; [congruence|]. rewrite <- !app_assoc in H. cbn [lit list_ascii_of_string app] in H. now injection H.
    - exfalso. eapply A2 in H; eauto.
    - exfalso. symmetry in H. eapply A1 in H; eauto.
    - exfalso. symmetry in H. eapply A2 in H; eauto.
    - rewrite <- !app_assoc in H. apply sf_split in H; [|assumption|assumption|reflexivity|reflexivity]. destruct H as [-> H]. split; [reflexivity|]. cbn in H. now injection H.
  Qed.

  Lemma others_stop v r : stop r -> stop (concat (map (other_term sf) (shs v)) ++ r).
  Proof. destruct v as [|p v]; intros H; [exact H|]. cbn. right; right. split; [reflexivity|]. eexists. reflexivity. Qed.

  Section Step.
    Variable n : nat.
    Hypothesis IHn : forall f g r s, length (show f) < n -> pr f -> pr g -> stop r -> stop s -> show f ++ r = show g ++ s -> r = s /\ same_values f g.
    Notation pt := (fun p : R * afn => F (fst p) /\ pr (snd p)).
    Lemma others_split v : forall w r s, Forall pt v -> Forall pt w -> (forall p, In p v -> length (show (snd p)) < n) ->
      concat (map (other_term sf) (shs v)) ++ ")"%char :: r = concat (map (other_term sf) (shs w)) ++ ")"%char :: s -> r = s /\ same_values (ASum v) (ASum w).
    Proof.
      induction v as [|[c f] v IH]; intros [|[d g] w] r s Hv Hw L H; cbn in H.
      - injection H as ->. split; [reflexivity|]. intros x. reflexivity.
      - discriminate H.
      - discriminate H.
      - apply Forall_cons_iff in Hv. destruct Hv as [[Fc Pf] Hv]. apply Forall_cons_iff in Hw. destruct Hw as [[Fd Pg] Hw]. cbn [fst snd] in *.
        injection H as H. rewrite <- !app_assoc in H. apply sf_split in H; [|assumption|assumption|reflexivity|reflexivity]. destruct H as [-> H]. cbn in H. injection H as H.
        apply IHn in H; [|apply (L (d, f)); now left|assumption|assumption|apply others_stop; cbn; tauto|apply others_stop; cbn; tauto].
        destruct H as [H E]. apply IH in H; [|assumption|assumption|intros p Hp; apply L; now right]. destruct H as [-> E2]. split; [reflexivity|].
        intros x. specialize (E x). specialize (E2 x). cbn in E2 |- *. rewrite E, E2. reflexivity.
    Qed.
    Lemma terms_split v w r s : Forall pt v -> Forall pt w -> length (show_terms sf (shs v)) < n ->
      show_terms sf (shs v) ++ ")"%char :: r = show_terms sf (shs w) ++ ")"%char :: s -> r = s /\ same_values (ASum v) (ASum w).
    Proof.
      intros Hv Hw L H.
      (* the empty sum reads like 1 times zero *)
      assert (F1 : F 1) by apply HF.
      assert (X : forall v, Forall pt v -> exists v', v' <> [] /\ Forall pt v' /\ show_terms sf (shs v) = show_terms sf (shs v') /\ same_values (ASum v) (ASum v')).
      { intros [|p u] K; [|exists (p :: u); repeat split; auto; discriminate]. exists [(1%R, AZero)]. split; [discriminate|]. split; [repeat constructor; auto|]. split.
        - cbn. unfold first_term. cbn. rewrite (proj2 (Reqb_eq 1 1) eq_refl). reflexivity.
        - intros x. cbn. f_equal. ring. }
      destruct (X v Hv) as (v' & Nv & Hv' & Tv & Ev). destruct (X w Hw) as (w' & Nw & Hw' & Tw & Ew). rewrite Tv in L, H. rewrite Tw in H.
      assert (G : r = s /\ same_values (ASum v') (ASum w')).
      { clear - IHn HF Nv Nw Hv' Hw' L H. destruct v' as [|[c f] v]; [now destruct Nv|]. destruct w' as [|[d g] w]; [now destruct Nw|].
        apply Forall_cons_iff in Hv'. destruct Hv' as [[Fc Pf] Hv]. apply Forall_cons_iff in Hw'. destruct Hw' as [[Fd Pg] Hw]. cbn [fst snd] in *.
        cbn [map show_terms fst snd] in L, H. rewrite <- !app_assoc in H. rewrite app_length in L.
        apply first_split in H; auto; try (apply others_stop; cbn; tauto). destruct H as [-> H].
        assert (LF : length (show f) <= length (first_term sf (d, show f))) by (unfold first_term; cbn [fst snd]; destruct (Reqb d 1); [lia|]; destruct (Reqb d (-(1))); rewrite !app_length; lia).
        assert (LO : forall p, In p v -> length (show (snd p)) <= length (concat (map (other_term sf) (shs v)))).
        { clear. induction v as [|q v IH]; [intros p []|]; intros p [->|Hp]; cbn [map concat]; rewrite app_length; [|specialize (IH p Hp); lia]. unfold other_term. cbn [fst snd]. rewrite !app_length. lia. }
        apply IHn in H; [|lia|assumption|assumption|apply others_stop; cbn; tauto|apply others_stop; cbn; tauto].
        destruct H as [H E]. apply others_split in H; [|assumption|assumption|intros p Hp; specialize (LO p Hp); lia]. destruct H as [-> E2]. split; [reflexivity|].
        intros x. specialize (E x). specialize (E2 x). cbn in E2 |- *. rewrite E, E2. reflexivity. }
      destruct G as [-> E]. split; [reflexivity|]. intros x. now rewrite (Ev x), (Ew x).
    Qed.
    Lemma one_term f : show_terms sf (shs [(1%R, f)]) = show f /\ same_values (ASum [(1%R, f)]) f.
    Proof.
      split.
      - cbn. unfold first_term. cbn. rewrite (proj2 (Reqb_eq 1 1) eq_refl). apply app_nil_r.
      - intros x. cbn. destruct (eval x f); cbn; [|reflexivity]. f_equal. ring.
    Qed.
    (** Either the same factor, or a real power of what the other has in parentheses. *)
    Definition power_of (f g : afn) (r s : text) : Prop :=
      exists h a v, f = ARealPow h a /\ g = ASum v /\ s = "^"%char :: sf a ++ r /\ same_values h (ASum v).
    Lemma atom_split f g r s : length (show f) <= n -> pr f -> pr g -> ~ is_product f -> ~ is_product g -> after r -> after s -> show f ++ r = show g ++ s ->
      (r = s /\ same_values f g) \/ power_of f g r s \/ power_of g f s r.
    Proof.
      intros L Pf Pg Nf Ng Ar As H.
      destruct f as [| |m|f a|f|f|v|v]; destruct g as [| |m'|g b|g|g|w|w]; try (now destruct Nf); try (now destruct Ng); try (cbn -[show_nat] in H; discriminate H).
      - left. cbn in H. injection H as ->. split; [reflexivity|intros x; reflexivity].
      - left. cbn in H. injection H as ->. split; [reflexivity|intros x; reflexivity].
      - left. cbn -[show_nat] in H. injection H as H. rewrite <- !app_assoc in H. apply show_nat_split in H; [|reflexivity|reflexivity]. destruct H as [-> H]. injection H as ->. split; [reflexivity|intros x; reflexivity].
      - left. destruct Pf as [Pf1 [Fa Pf2]], Pg as [Pg1 [Fb Pg2]]. cbn in H, L. injection H as H. rewrite <- !app_assoc in H. rewrite !app_length in L. cbn in L. apply IHn in H; [|lia|split; assumption|split; assumption|cbn; tauto|cbn; tauto].
        destruct H as [H E]. injection H as H. apply sf_split in H; auto using after_nnum. destruct H as [-> ->]. split; [reflexivity|]. intros x. cbn. now rewrite (E x).
      - right; left. destruct Pf as [Pf1 [Fa Pf2]]. apply pr_sum in Pg. cbn in H, L. injection H as H. rewrite <- !app_assoc in H. rewrite !app_length in L. cbn in L.
        destruct (one_term f) as [T E]. rewrite <- T in H. cbn [app] in H. apply terms_split in H; [|repeat constructor; [apply HF|exact Pf1|exact Pf2]|exact Pg|rewrite T; lia]. destruct H as [H E2].
        exists f, a, w. repeat split; [now rewrite <- H|]. intros x. now rewrite <- (E2 x), (E x).
      - left. cbn in H, L. injection H as H. rewrite <- !app_assoc in H. rewrite !app_length in L. cbn in L. apply IHn in H; [|lia|exact Pf|exact Pg|cbn; tauto|cbn; tauto].
        destruct H as [H E]. injection H as ->. split; [reflexivity|]. intros x. cbn. now rewrite (E x).
      - left. cbn in H, L. injection H as H. rewrite <- !app_assoc in H. rewrite !app_length in L. cbn in L. apply IHn in H; [|lia|exact Pf|exact Pg|cbn; tauto|cbn; tauto].
        destruct H as [H E]. injection H as ->. split; [reflexivity|]. intros x. cbn. now rewrite (E x).
      - right; right. destruct Pg as [Pg1 [Fb Pg2]]. apply pr_sum in Pf. cbn in H, L. injection H as H. rewrite <- !app_assoc in H. rewrite !app_length in L. cbn in L.
        destruct (one_term g) as [T E]. rewrite <- T in H. cbn [app] in H. apply terms_split in H; [|exact Pf|repeat constructor; [apply HF|exact Pg1|exact Pg2]|lia]. destruct H as [H E2].
        exists g, b, v. repeat split; [now rewrite H|]. intros x. now rewrite (E2 x), (E x).
      - left. apply pr_sum in Pf. apply pr_sum in Pg. cbn in H, L. injection H as H. rewrite <- !app_assoc in H. rewrite !app_length in L. cbn in L. cbn [app] in H. apply terms_split in H; [|assumption|assumption|lia]. exact H.
    Qed.
    Lemma powi_1 y : powi y 1 = Some y.
    Proof. unfold powi. change (1 <? 0)%Z with false. rewrite andb_false_r. f_equal. unfold powerRZ. change (Pos.to_nat 1) with 1. apply pow_1. Qed.
    Lemma powf_int y z : powf y (IZR z) = powi y z.
    Proof. unfold powf. rewrite (proj2 (is_int_spec (IZR z))) by eauto. now rewrite Int_part_IZR. Qed.
    Definition exp_text (e : Z) : text := if (e =? 1)%Z then [] else "^"%char :: show_Z e.
    Lemma exp_after e t : after t -> after (exp_text e ++ t).
    Proof. unfold exp_text. destruct (e =? 1)%Z; [auto|]. intros _. cbn. tauto. Qed.
    Definition next (t : text) : Prop := match t with [] => True | c :: _ => c = ")"%char \/ c = ","%char \/ c = " "%char end.
    Lemma next_after t : next t -> after t. Proof. destruct t; [auto|cbn; tauto]. Qed.
    Lemma next_not t u : next t -> t <> "^"%char :: u. Proof. destruct t as [|c t]; [discriminate|]. cbn. intros K E. injection E as -> _. destruct K as [K|[K|K]]; discriminate K. Qed.
    Lemma power_pow f g e e' r s : pr f -> (- 2 ^ 31 <= e' < 2 ^ 31)%Z -> next r -> next s -> power_of f g (exp_text e ++ r) (exp_text e' ++ s) ->
      r = s /\ forall x, (do y <- eval x f; powi y e) = (do y <- eval x g; powi y e').
    Proof.
      intros Pf B Nr Ns (h & a & v & -> & -> & E & V). destruct Pf as [_ [Fa _]]. unfold exp_text at 1 in E. destruct (Z.eqb_spec e' 1) as [->|Ne']; [now apply next_not in E|]. cbn [app] in E. injection E as E.
      apply nums_split in E; [|apply show_Z_num|now apply sf_num|now apply after_nnum, next_after|now apply after_nnum, exp_after, next_after]. destruct E as [E E2].
      unfold exp_text in E2. destruct (Z.eqb_spec e 1) as [->|Ne]; [|now apply next_not in E2]. split; [now rewrite E2|]. destruct HF as (_ & _ & _ & I). symmetry in E. apply I in E; [|exact Fa|exact B]. subst a.
      intros x. cbn [eval]. rewrite (V x). cbn [eval]. destruct (fold_right _ _ _) as [y|]; cbn [obind]; [|reflexivity]. rewrite powf_int. destruct (powi y e'); cbn [obind]; [apply powi_1|reflexivity].
    Qed.
    Notation pz := (fun p : Z * afn => (- 2 ^ 31 <= fst p < 2 ^ 31)%Z /\ ~ is_product (snd p) /\ pr (snd p)).
    Lemma show_power_text e t : show_power (e, t) = " "%char :: t ++ exp_text e.
    Proof. unfold show_power, exp_text. cbn [fst snd]. destruct (e =? 1)%Z; reflexivity. Qed.
    Lemma factors_next v r : stop r -> next (concat (map show_power (shs v)) ++ r).
    Proof. destruct v as [|p v]; intros H; [destruct r as [|c u]; cbn in *; tauto|]. cbn. tauto. Qed.
    Lemma factors_split v : forall w r s, Forall pz v -> Forall pz w -> (forall p, In p v -> length (show (snd p)) <= n) -> stop r -> stop s ->
      concat (map show_power (shs v)) ++ r = concat (map show_power (shs w)) ++ s -> r = s /\ same_values (AProd v) (AProd w).
    Proof.
      assert (SA : forall g c (r : text), ~ is_product g -> stop r -> r <> " "%char :: show g ++ c).
      { intros g c r N Sr E. destruct (atom_head g N) as (x & u & Eg & A). rewrite Eg in E. subst r. cbn in Sr. destruct Sr as [K|[K|[_ [u' K]]]]; [discriminate K|discriminate K|]. injection K as K. subst x. unfold ahead in A.
        repeat (destruct A as [A|A]; [discriminate A|]). discriminate A. }
      induction v as [|[e f] v IH]; intros [|[e' g] w] r s Hv Hw L Sr Ss H; cbn [map concat fst snd] in H; rewrite ?show_power_text in H.
      - cbn in H. subst. split; [reflexivity|intros x; reflexivity].
      - exfalso. cbn [app] in H. rewrite <- !app_assoc in H. apply Forall_cons_iff in Hw. destruct Hw as [(_ & N & _) _]. now apply SA in H.
      - exfalso. cbn [app] in H. rewrite <- !app_assoc in H. apply Forall_cons_iff in Hv. destruct Hv as [(_ & N & _) _]. symmetry in H. now apply SA in H.
      - apply Forall_cons_iff in Hv. destruct Hv as [(Be & Nf & Pf) Hv]. apply Forall_cons_iff in Hw. destruct Hw as [(Be' & Ng & Pg) Hw]. cbn [fst snd] in *.
        cbn [app] in H. injection H as H. rewrite <- !app_assoc in H.
        pose proof (factors_next v r Sr) as Nr. pose proof (factors_next w s Ss) as Ns.
        assert (G : concat (map show_power (shs v)) ++ r = concat (map show_power (shs w)) ++ s /\ forall x, (do y <- eval x f; powi y e) = (do y <- eval x g; powi y e')).
        { apply atom_split in H; auto using exp_after, next_after; [|apply (L (e, f)); now left]. destruct H as [[H E]|[H|H]].
          - assert (EE : e = e' /\ concat (map show_power (shs v)) ++ r = concat (map show_power (shs w)) ++ s).
            { unfold exp_text in H. destruct (Z.eqb_spec e 1) as [->|Ne]; destruct (Z.eqb_spec e' 1) as [->|Ne']; cbn [app] in H.
              - auto.
              - now apply next_not in H.
              - symmetry in H. now apply next_not in H.
              - injection H as H. apply show_Z_split in H; [exact H| |]; (match goal with |- stops _ ?t => assert (K : next t) by assumption; destruct t as [|cc tt]; [exact I|]; cbn in K |- *; destruct K as [->|[->| ->]]; reflexivity end). }
            destruct EE as [-> EE]. split; [exact EE|]. intros x. now rewrite (E x).
          - apply power_pow in H; auto.
          - apply power_pow in H; auto. destruct H as [H E]. split; [now rewrite H|]. intros x. now rewrite (E x). }
        destruct G as [G E]. apply IH in G; auto; [|intros p Hp; apply L; now right]. destruct G as [-> E2]. split; [reflexivity|].
        intros x. specialize (E x). specialize (E2 x). cbn in E2 |- *. unfold obind in *. rewrite E2. destruct (eval x f), (eval x g); [now rewrite E|now rewrite E|now rewrite <- E|reflexivity].
    Qed.
    Lemma fn_split f g r s : length (show f) <= n -> pr f -> pr g -> stop r -> stop s -> show f ++ r = show g ++ s -> r = s /\ same_values f g.
    Proof.
      intros L Pf Pg Sr Ss H.
      assert (D : forall f, is_product f \/ ~ is_product f) by (intros []; cbn; tauto).
      assert (M : forall v g r s, ~ is_product g -> Forall pz v -> stop r -> concat (map show_power (shs v)) ++ r <> show g ++ s).
      { intros v g' r' s' N Hv S' E. destruct (atom_head g' N) as (x & u & Eg & A). rewrite Eg in E. destruct v as [|p v].
        - cbn in E. subst r'. cbn in S'. unfold ahead in A. destruct S' as [->|[->|[-> _]]]; repeat (destruct A as [A|A]; [discriminate A|]); discriminate A.
        - cbn in E. injection E as E _. subst x. unfold ahead in A. repeat (destruct A as [A|A]; [discriminate A|]); discriminate A. }
      destruct (D f) as [If|Nf]; destruct (D g) as [Ig|Ng].
      - destruct f; try now destruct If. destruct g; try now destruct Ig. apply pr_prod in Pf. apply pr_prod in Pg. cbn [show_fn] in *. apply factors_split in H; auto.
        intros p Hp. etransitivity; [|exact L]. clear - Hp HF IHn. induction v as [|q v IH]; [destruct Hp|]. cbn [map concat]. rewrite app_length, show_power_text. cbn [length]. rewrite app_length. destruct Hp as [->|Hp]; [lia|]. specialize (IH Hp). lia.
      - exfalso. destruct f; try now destruct If. apply pr_prod in Pf. cbn [show_fn] in H. now apply M in H.
      - exfalso. destruct g; try now destruct Ig. apply pr_prod in Pg. cbn [show_fn] in H. symmetry in H. now apply M in H.
      - assert (NC : forall u, stop ("^"%char :: u) -> False) by (intros u [K|[K|[K _]]]; discriminate K).
        apply atom_split in H; auto using stop_after. destruct H as [H|[H|H]]; [exact H| |]; exfalso; destruct H as (h & a & v & _ & _ & -> & _); eapply NC; eassumption.
    Qed.
  End Step.
  Theorem read_fn f g r s : pr f -> pr g -> stop r -> stop s -> show f ++ r = show g ++ s -> r = s /\ same_values f g.
  Proof.
    enough (A : forall n f g r s, length (show f) < n -> pr f -> pr g -> stop r -> stop s -> show f ++ r = show g ++ s -> r = s /\ same_values f g) by (apply (A (S (length (show f)))); lia).
    induction n as [|n IH]; [lia|]. intros f0 g0 r0 s0 L. apply (fn_split n IH). lia.
  Qed.
End Read.
