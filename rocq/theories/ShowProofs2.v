(** Reading back permutations, rationals, cubes and formal sums of cubes. *)
From Coq Require Import String Ascii DecimalString List ZArith Bool Lia.
From Verif Require Import PidModel MatModel RationalModel RationalSpec PermModel LinModel UtilModel GraphModel LabGraphModel CubeModel ShowModel ShowProofs.
Import ListNotations.
Open Scope nat_scope.
Open Scope list_scope.

(** Comma-separated lists. *)
Definition comma_nat (k : nat) : text := lit ", " ++ show_nat k.
Lemma comma_nats_split l m r s : stops (fun c => ndigit c && negb (Ascii.eqb c ",")) r -> stops (fun c => ndigit c && negb (Ascii.eqb c ",")) s ->
  concat (map comma_nat l) ++ r = concat (map comma_nat m) ++ s -> l = m /\ r = s.
Proof.
  intros Sr Ss H. apply (concat_split comma_nat (fun _ => True) ","%char ndigit) in H; try assumption; auto; try now apply Forall_forall.
  - intros a b r' s' _ _ Sr' Ss' K. unfold comma_nat in K. rewrite <- !app_assoc in K. cbn -[show_nat] in K. injection K as K. now apply show_nat_split in K.
  - intros a. eexists. reflexivity.
Qed.
Lemma show_cycle_shape x l : show_cycle (x :: l) = lit "(" ++ show_nat x ++ concat (map comma_nat l) ++ lit ")".
Proof.
  unfold show_cycle. f_equal. rewrite <- !app_assoc || idtac.
  assert (G : forall l (d x : nat), concat (map (fun k => show_nat (nth k (x :: l) d) ++ lit ", ") (seq 0 (length l))) ++ show_nat (last (x :: l) d) = show_nat x ++ concat (map comma_nat l)).
  { clear x l. intros l d. induction l as [|y l IH]; intros x; [cbn; now rewrite app_nil_r|].
    cbn [length seq map concat]. rewrite <- seq_shift, map_map. change (last (x :: y :: l) d) with (last (y :: l) d).
    change (nth 0 (x :: y :: l) d) with x. unfold comma_nat at 1. rewrite <- !app_assoc. f_equal. f_equal. rewrite <- IH. reflexivity. }
  cbn [length]. replace (S (length l) - 1) with (length l) by lia. rewrite !app_assoc. f_equal. rewrite <- (G l 0). reflexivity.
Qed.
(** The first factor [1] stands for the empty cycle too. *)
Definition norm_cycle (c : cycle) : cycle := match c with [] => [1] | _ => c end.
Lemma show_norm c : show_cycle (norm_cycle c) = show_cycle c.
Proof. destruct c; reflexivity. Qed.
Lemma cycle_split c d r s : show_cycle c ++ r = show_cycle d ++ s -> norm_cycle c = norm_cycle d /\ r = s.
Proof.
  rewrite <- (show_norm c), <- (show_norm d).
  assert (N : forall c, exists x l, norm_cycle c = x :: l) by (intros [|x l]; cbn; eauto).
  destruct (N c) as (x & l & ->), (N d) as (y & m & ->). rewrite !show_cycle_shape, <- !app_assoc. intros H. cbn -[show_nat] in H. injection H as H.
  apply show_nat_split in H; [|destruct l; st|destruct m; st]. destruct H as [-> H]. apply comma_nats_split in H; [|st|st]. destruct H as [-> H]. injection H as ->. auto.
Qed.
Lemma show_cycle_head c : exists r, show_cycle c = "("%char :: r.
Proof. rewrite <- show_norm. destruct c as [|x l]; cbn [norm_cycle]; rewrite show_cycle_shape; eexists; reflexivity. Qed.
Lemma show_perm_inj p q : show_perm p = show_perm q -> map norm_cycle p = map norm_cycle q.
Proof.
  unfold show_perm. revert q. induction p as [|c p IH]; intros [|d q] H; cbn [map concat] in *.
  - reflexivity.
  - destruct (show_cycle_head d) as [r E]. rewrite E in H. discriminate H.
  - destruct (show_cycle_head c) as [r E]. rewrite E in H. discriminate H.
  - apply cycle_split in H. destruct H as [E H]. f_equal; auto.
Qed.

(** Rationals *)
Lemma rational_split a b r s : (0 <= num a)%Z -> (0 <= num b)%Z -> stops (fun c => ndigit c && negb (Ascii.eqb c "/")) r -> stops (fun c => ndigit c && negb (Ascii.eqb c "/")) s ->
  show_rational a ++ r = show_rational b ++ s -> a = b /\ r = s.
Proof.
  intros Ha Hb Sr Ss H.
  assert (W : forall r, stops (fun c => ndigit c && negb (Ascii.eqb c "/")) r -> stops ndigit r) by (intros [|c q] K; [exact I|]; cbn in *; now apply andb_prop in K).
  assert (X : forall r q, stops (fun c => ndigit c && negb (Ascii.eqb c "/")) r -> r <> "/"%char :: q) by (intros q' q K ->; discriminate K).
  assert (B : forall m d (r : text), exists q, (if (d =? 1)%Z then show_Z m else show_Z m ++ lit "/" ++ show_Z d) ++ r = show_Z m ++ q /\
     ((d = 1 /\ q = r) \/ (d <> 1 /\ q = "/"%char :: show_Z d ++ r))%Z).
  { intros m d q. destruct (Z.eqb_spec d 1) as [->|N]; [exists q; auto|]. exists ("/"%char :: show_Z d ++ q). rewrite <- !app_assoc. auto. }
  assert (C : forall m n q q', (0 <= m)%Z -> show_Z m ++ q <> "-"%char :: show_Z n ++ q').
  { intros m n q q' Hm K. destruct (show_Z_nonneg_head m Hm) as (c & t & E & D). rewrite E in K. injection K as K _. subst c. discriminate D. }
  unfold show_rational in H. rewrite <- !app_assoc in H. destruct a as [n d sg], b as [n' d' sg']. cbn [num den sign] in *.
  destruct (B n d r) as (q & E & F), (B n' d' s) as (q' & E' & F'). rewrite E, E' in H.
  assert (Q : stops ndigit q /\ stops ndigit q') by (split; [destruct F as [[_ ->]|[_ ->]]|destruct F' as [[_ ->]|[_ ->]]]; auto; reflexivity).
  destruct Q as [Q Q'].
  assert (G : sg = sg' /\ n = n' /\ q = q').
  { destruct sg, sg'; cbn in H.
    - apply show_Z_split in H; try assumption. destruct H; auto.
    - now apply C in H.
    - symmetry in H. now apply C in H.
    - injection H as H. apply show_Z_split in H; try assumption. destruct H; auto. }
  destruct G as (-> & -> & G). destruct F as [[-> ->]|[N ->]], F' as [[-> ->]|[N' ->]].
  - auto.
  - now apply X in G.
  - symmetry in G. now apply X in G.
  - injection G as G. apply show_Z_split in G; auto. destruct G as [-> ->]. auto.
Qed.
Lemma show_rational_inj a b : (0 <= num a)%Z -> (0 <= num b)%Z -> show_rational a = show_rational b -> a = b.
Proof. intros Ha Hb H. apply (rational_split a b [] []); try assumption; try exact I. now rewrite H. Qed.

(** Cubes *)
Lemma factor_split a b r s : stops ndigit r -> stops ndigit s -> show_factor a ++ r = show_factor b ++ s -> a = b /\ r = s.
Proof.
  intros Sr Ss H.
  assert (X : forall n r q, show_nat n ++ r <> "["%char :: q) by (intros n t q K; destruct (show_nat_head n) as (c & l & E & D); rewrite E in K; injection K as K _; subst c; discriminate D).
  destruct a as [x y|x], b as [x' y'|x']; unfold show_factor in H; rewrite <- ?app_assoc in H; cbn -[show_nat] in H.
  - injection H as H. apply show_nat_split in H; [|st|st]. destruct H as [-> H]. injection H as H. apply show_nat_split in H; [|st|st]. destruct H as [-> H]. injection H as ->. auto.
  - symmetry in H. now apply X in H.
  - now apply X in H.
  - apply show_nat_split in H; try assumption. destruct H as [-> ->]. auto.
Qed.
Definition comma_factor (f : factor) : text := lit ", " ++ show_factor f.
Lemma comma_factors_split l m r s : stops (fun c => ndigit c && negb (Ascii.eqb c ",")) r -> stops (fun c => ndigit c && negb (Ascii.eqb c ",")) s ->
  concat (map comma_factor l) ++ r = concat (map comma_factor m) ++ s -> l = m /\ r = s.
Proof.
  intros Sr Ss H. apply (concat_split comma_factor (fun _ => True) ","%char ndigit) in H; try assumption; auto; try now apply Forall_forall.
  - intros a b r' s' _ _ Sr' Ss' K. unfold comma_factor in K. rewrite <- !app_assoc in K. cbn -[show_factor] in K. injection K as K. now apply factor_split in K.
  - intros a. eexists. reflexivity.
Qed.
Lemma cube_split a b ta tb r s : show_cube a = Some ta -> show_cube b = Some tb -> ta ++ r = tb ++ s -> a = b /\ r = s.
Proof.
  intros Ea Eb H. destruct a as [|f a], b as [|g b]; cbn in Ea, Eb; try discriminate Ea; try discriminate Eb.
  injection Ea as <-. injection Eb as <-.
  change (fun g => ","%char :: " "%char :: show_factor g) with comma_factor in H.
  cbn -[show_factor] in H. injection H as H. rewrite <- !app_assoc in H.
  apply factor_split in H; [|destruct a; st|destruct b; st]. destruct H as [-> H]. apply comma_factors_split in H; [|st|st]. destruct H as [-> H]. injection H as ->. auto.
Qed.
Lemma show_cube_head a t : show_cube a = Some t -> exists r, t = "{"%char :: r.
Proof. destruct a as [|f a]; cbn; intros E; [discriminate E|]. injection E as <-. eexists. reflexivity. Qed.
Lemma show_cube_total a : a <> [] -> exists t, show_cube a = Some t.
Proof. destruct a as [|f a]; [congruence|]. cbn. eauto. Qed.

Lemma omapM_total {A B} (f : A -> option B) l : Forall (fun a => exists b, f a = Some b) l -> exists m, omapM f l = Some m.
Proof. induction 1 as [|a l (b & E) _ (m & IH)]; [exists []; reflexivity|]. cbn. rewrite E. cbn. rewrite IH. cbn. eauto. Qed.

(** A partial printer that can be read back, whatever follows, provided what follows satisfies [P]. *)
Definition readable {A} (sh : A -> option text) (P : ascii -> bool) : Prop :=
  forall a b ta tb r s, sh a = Some ta -> sh b = Some tb -> stops P r -> stops P s -> ta ++ r = tb ++ s -> a = b /\ r = s.
Lemma omapM_split {A} (sh : A -> option text) (c0 : ascii) (P : ascii -> bool) :
  readable sh P -> (forall a t, sh a = Some t -> exists r, t = c0 :: r) -> P c0 = true ->
  forall l m tl tm r s, omapM sh l = Some tl -> omapM sh m = Some tm -> stops (fun c => P c && negb (Ascii.eqb c c0)) r -> stops (fun c => P c && negb (Ascii.eqb c c0)) s ->
  concat tl ++ r = concat tm ++ s -> l = m /\ r = s.
Proof.
  intros Hs Hh Hp l m tl tm r s El Em Sr Ss H.
  assert (W : forall r, stops (fun c => P c && negb (Ascii.eqb c c0)) r -> stops P r).
  { intros [|c q] K; [exact I|]. cbn in *. now apply andb_prop in K. }
  assert (X : forall a t l r, sh a = Some t -> stops (fun c => P c && negb (Ascii.eqb c c0)) r -> t ++ l <> r).
  { intros a t l' q Ea K F. destruct (Hh a t Ea) as [t' ->]. subst q. cbn in K. rewrite Ascii.eqb_refl, andb_false_r in K. discriminate K. }
  assert (Y : forall l tl r, omapM sh l = Some tl -> stops (fun c => P c && negb (Ascii.eqb c c0)) r -> stops P (concat tl ++ r)).
  { intros [|a l'] tl' q E K; cbn in E; [injection E as <-; now apply W|]. destruct (sh a) as [t|] eqn:Ea; cbn in E; [|discriminate E]. destruct (omapM sh l') as [t'|]; cbn in E; [|discriminate E].
    injection E as <-. destruct (Hh a t Ea) as [u ->]. exact Hp. }
  revert m tl tm El Em H. induction l as [|a l IH]; intros [|b m] tl tm El Em H; cbn in El, Em.
  - injection El as <-. injection Em as <-. auto.
  - injection El as <-. destruct (sh b) as [t|] eqn:Eb; cbn in Em; [|discriminate Em]. destruct (omapM sh m) as [t'|]; cbn in Em; [|discriminate Em]. injection Em as <-.
    cbn in H. rewrite <- app_assoc in H. symmetry in H. exfalso. exact (X b t _ r Eb Sr H).
  - injection Em as <-. destruct (sh a) as [t|] eqn:Ea; cbn in El; [|discriminate El]. destruct (omapM sh l) as [t'|]; cbn in El; [|discriminate El]. injection El as <-.
    cbn in H. rewrite <- app_assoc in H. exfalso. exact (X a t _ s Ea Ss H).
  - destruct (sh a) as [t|] eqn:Ea; cbn in El; [|discriminate El]. destruct (omapM sh l) as [t'|] eqn:El'; cbn in El; [|discriminate El]. injection El as <-.
    destruct (sh b) as [u|] eqn:Eb; cbn in Em; [|discriminate Em]. destruct (omapM sh m) as [u'|] eqn:Em'; cbn in Em; [|discriminate Em]. injection Em as <-.
    cbn in H. rewrite <- !app_assoc in H. eapply Hs in H; try eassumption; [|now apply (Y l)|now apply (Y m)]. destruct H as [-> H]. eapply IH in H; [|reflexivity|eassumption]. destruct H as [-> ->]. auto.
Qed.

(** Formal sums whose basis elements print between braces. *)
Section Vec.
  Context {B : Type} (sb : B -> option text).
  Variable c1 : ascii.
  Hypothesis Hd : digit c1 = false.
  Hypothesis Hm : c1 <> "-"%char.
  Hypothesis Hb : readable sb (fun _ => true).
  Hypothesis Hh : forall a t, sb a = Some t -> exists r, t = c1 :: r.

  Lemma first_split : readable (show_first sb) (fun _ => true).
  Proof.
    intros [i x] [j y] ta tb r s Ea Eb Sr Ss H. unfold show_first in *. cbn [fst snd] in *.
    destruct (sb x) as [tx|] eqn:Ex; cbn in Ea; [|discriminate Ea]. destruct (sb y) as [ty|] eqn:Ey; cbn in Eb; [|discriminate Eb].
    injection Ea as <-. injection Eb as <-. destruct (Hh x tx Ex) as [tx' Fx], (Hh y ty Ey) as [ty' Fy].
    assert (N : forall i r q, (i <> 0)%Z \/ True -> show_Z i ++ r <> c1 :: q).
    { intros k q q' _ K. destruct (show_Z_head k) as (c & l & E & [D|D]); rewrite E in K; injection K as K _; congruence. }
    assert (M : forall i r q, i <> (-1)%Z -> show_Z i ++ lit "·" ++ r <> "-"%char :: c1 :: q).
    { intros k q q' Nk K. destruct (show_Z_cases k) as [(u & Nu & _ & E & _)|(u & Nu & _ & E & _)]; rewrite E in K.
      - destruct (lit_nonempty u Nu) as (c & l & F). pose proof (uint_digits u) as G. rewrite F in *. injection K as K _. inversion G; subst. discriminate.
      - cbn [app] in K. injection K as K. destruct (lit_nonempty u Nu) as (c & l & F). pose proof (uint_digits u) as G. rewrite F in *. injection K as K _. inversion G; subst. congruence. }
    destruct (Z.eqb_spec i 1) as [->|Ni]; destruct (Z.eqb_spec j 1) as [->|Nj].
    - eapply Hb in H; try eassumption. destruct H as [-> ->]. auto.
    - exfalso. destruct (Z.eqb_spec j (-1)) as [->|Nj'].
      + rewrite Fx in H. cbn in H. injection H as H _. congruence.
      + symmetry in H. rewrite <- !app_assoc in H. rewrite Fx in H. cbn [app] in H. eapply N in H; auto.
    - exfalso. destruct (Z.eqb_spec i (-1)) as [->|Ni'].
      + rewrite Fy in H. cbn in H. injection H as H _. congruence.
      + rewrite <- !app_assoc in H. rewrite Fy in H. cbn [app] in H. eapply N in H; auto.
    - destruct (Z.eqb_spec i (-1)) as [->|Ni']; destruct (Z.eqb_spec j (-1)) as [->|Nj'].
      + cbn in H. injection H as H. eapply Hb in H; try eassumption. destruct H as [-> ->]. auto.
      + exfalso. symmetry in H. rewrite <- !app_assoc in H. rewrite Fx in H. eapply M in H; auto.
      + exfalso. rewrite <- !app_assoc in H. rewrite Fy in H. eapply M in H; auto.
      + rewrite <- !app_assoc in H. apply show_Z_split in H; [|st|st]. destruct H as [-> H]. injection H as H. eapply Hb in H; try eassumption. destruct H as [-> ->]. auto.
  Qed.
  Lemma other_split : readable (show_other sb) (fun _ => true).
  Proof.
    intros [i x] [j y] ta tb r s Ea Eb Sr Ss H. unfold show_other in *. cbn [fst snd] in *.
    destruct (sb x) as [tx|] eqn:Ex; cbn -[show_Z] in Ea; [|discriminate Ea]. destruct (sb y) as [ty|] eqn:Ey; cbn -[show_Z] in Eb; [|discriminate Eb].
    injection Ea as <-. injection Eb as <-. cbn -[show_Z] in H. injection H as H. rewrite <- !app_assoc in H.
    apply show_Z_split in H; [|st|st]. destruct H as [-> H]. injection H as H. eapply Hb in H; try eassumption. destruct H as [-> ->]. auto.
  Qed.
  Lemma vector_split : c1 <> "0"%char -> readable (show_vector sb) (fun c => Ascii.eqb c ",").
  Proof.
    intros N0 v w tv tw r s Ev Ew Sr Ss H.
    assert (Sp : forall r, stops (fun c => Ascii.eqb c ",") r -> stops (fun c => true && negb (Ascii.eqb c " ")) r).
    { intros [|c q] K; [exact I|]. cbn [stops] in *. apply Ascii.eqb_eq in K. subst c. reflexivity. }
    assert (TT : forall r : text, stops (fun _ => true) r) by (intros [|c q]; [exact I|reflexivity]).
    assert (Z0 : forall t a q r, show_first sb t = Some a -> stops (fun c => Ascii.eqb c ",") q -> a ++ r <> "0"%char :: q).
    { intros [i x] a q q' E Sq K. unfold show_first in E. cbn [fst snd] in E. destruct (sb x) as [tx|] eqn:Ex; cbn in E; [|discriminate E]. injection E as <-.
      destruct (Hh x tx Ex) as [tx' Fx]. destruct (i =? 1)%Z; [rewrite Fx in K; injection K as K _; congruence|]. destruct (i =? -1)%Z; [discriminate K|].
      rewrite <- app_assoc in K. change ("0"%char :: q) with (show_Z 0 ++ q) in K.
      destruct q as [|c q].
      - rewrite <- (app_nil_r (show_Z 0)) in K. rewrite <- (app_assoc (show_Z 0) [] []) in K. apply show_Z_split in K; [|st|st]. destruct K as [_ K]. discriminate K.
      - cbn in Sq. apply Ascii.eqb_eq in Sq. subst c. apply show_Z_split in K; [|st|st]. destruct K as [_ K]. discriminate K. }
    destruct v as [|a v], w as [|b w]; unfold show_vector in Ev, Ew.
    - injection Ev as <-. injection Ew as <-. injection H as ->. auto.
    - injection Ev as <-. destruct (show_first sb b) as [tb|] eqn:Eb; cbn in Ew; [|discriminate Ew]. destruct (omapM (show_other sb) w) as [l|]; cbn in Ew; [|discriminate Ew]. injection Ew as <-.
      exfalso. symmetry in H. rewrite <- app_assoc in H. exact (Z0 b tb r _ Eb Sr H).
    - injection Ew as <-. destruct (show_first sb a) as [tb|] eqn:Eb; cbn in Ev; [|discriminate Ev]. destruct (omapM (show_other sb) v) as [l|]; cbn in Ev; [|discriminate Ev]. injection Ev as <-.
      exfalso. rewrite <- app_assoc in H. exact (Z0 a tb s _ Eb Ss H).
    - destruct (show_first sb a) as [ta|] eqn:Ea; cbn in Ev; [|discriminate Ev]. destruct (omapM (show_other sb) v) as [l|] eqn:El; cbn in Ev; [|discriminate Ev]. injection Ev as <-.
      destruct (show_first sb b) as [tb|] eqn:Eb; cbn in Ew; [|discriminate Ew]. destruct (omapM (show_other sb) w) as [k|] eqn:Ek; cbn in Ew; [|discriminate Ew]. injection Ew as <-.
      rewrite <- !app_assoc in H. eapply first_split in H; try eassumption; auto. destruct H as [-> H].
      assert (HO : forall a t, show_other sb a = Some t -> exists r, t = " "%char :: r).
      { intros [i x] t E. unfold show_other in E. destruct (sb (snd (i, x))); cbn -[show_Z] in E; [|discriminate E]. injection E as <-. eexists. reflexivity. }
      destruct (omapM_split (show_other sb) " "%char (fun _ => true) other_split HO eq_refl v w l k r s El Ek (Sp r Sr) (Sp s Ss) H) as [-> ->]. auto.
  Qed.
End Vec.
