(** Reading back descriptions of cycles, pools, graphs, matrices and vertex names. *)
From Coq Require Import String Ascii DecimalString List ZArith Bool Lia.
From Verif Require Import PidModel MatModel RationalModel RationalSpec PermModel LinModel UtilModel GraphModel LabGraphModel CubeModel ShowModel ShowProofs ShowProofs2.
Import ListNotations.
Open Scope nat_scope.
Open Scope list_scope.

Lemma cube_readable : readable show_cube (fun _ => true).
Proof. intros a b ta tb r s Ea Eb _ _ H. exact (cube_split a b ta tb r s Ea Eb H). Qed.
Lemma cubes_readable : readable (show_vector show_cube) (fun c => Ascii.eqb c ",").
Proof.
  apply (vector_split show_cube "{"%char); try reflexivity; try discriminate; [exact cube_readable|exact show_cube_head].
Qed.

Section Desc.
  Context {B : Type} (sb : B -> option text).
  Hypothesis Hv : readable (show_vector sb) (fun c => Ascii.eqb c ",").
  Definition show_item (v : list (Z * B)) : option text := do t <- show_vector sb v; Some (["009"%char] ++ t ++ lit ", " ++ ["010"%char]).
  Lemma describe_dim_eq what iv : describe_dim sb what iv = (do l <- omapM show_item (snd iv); Some (show_nat (fst iv) ++ what ++ ["010"%char] ++ concat l)).
  Proof. reflexivity. Qed.
  Lemma item_readable : readable show_item (fun _ => true).
  Proof.
    intros v w tv tw r s Ev Ew _ _ H. unfold show_item in *. destruct (show_vector sb v) as [a|] eqn:Ea; cbn in Ev; [|discriminate Ev]. destruct (show_vector sb w) as [b|] eqn:Eb; cbn in Ew; [|discriminate Ew].
    injection Ev as <-. injection Ew as <-. injection H as H. rewrite <- !app_assoc in H. eapply Hv in H; try eassumption; [|st|st]. destruct H as [-> H]. injection H as ->. auto.
  Qed.
  Lemma dim_readable what c0 w0 : what = c0 :: w0 -> ndigit c0 = true -> readable (describe_dim sb what) (fun c => negb (Ascii.eqb c "009")).
  Proof.
    intros Ew N [i cs] [j ds] ta tb r s Ea Eb Sr Ss H. rewrite describe_dim_eq in Ea, Eb. cbn [fst snd] in *.
    destruct (omapM show_item cs) as [a|] eqn:Ec; cbn -[show_nat] in Ea; [|discriminate Ea]. destruct (omapM show_item ds) as [b|] eqn:Ed; cbn -[show_nat] in Eb; [|discriminate Eb].
    injection Ea as <-. injection Eb as <-. rewrite <- !app_assoc in H. apply show_nat_split in H; [|rewrite Ew; exact N|rewrite Ew; exact N]. destruct H as [-> H].
    apply app_inv_head in H. cbn [app] in H. injection H as H.
    assert (HO : forall a t, show_item a = Some t -> exists r, t = "009"%char :: r).
    { intros v t E. unfold show_item in E. destruct (show_vector sb v); cbn in E; [|discriminate E]. injection E as <-. eexists. reflexivity. }
    destruct (omapM_split show_item "009"%char (fun _ => true) item_readable HO eq_refl cs ds a b r s Ec Ed Sr Ss H) as [-> ->]. auto.
  Qed.
  Lemma dims_split what c0 w0 l m tl tm : what = c0 :: w0 -> ndigit c0 = true -> omapM (describe_dim sb what) l = Some tl -> omapM (describe_dim sb what) m = Some tm -> concat tl = concat tm -> l = m.
  Proof.
    intros Ew N.
    assert (Hd : forall a t, describe_dim sb what a = Some t -> exists c r, t = c :: r /\ digit c = true).
    { intros [i cs] t E. unfold describe_dim in E. cbn [fst snd] in E. match type of E with (do _ <- ?x; _) = _ => destruct x end; cbn -[show_nat] in E; [|discriminate E]. injection E as <-.
      destruct (show_nat_head i) as (c & r & F & D). rewrite F. exists c. eexists. split; [reflexivity|exact D]. }
    assert (Y : forall l tl, omapM (describe_dim sb what) l = Some tl -> stops (fun c => negb (Ascii.eqb c "009")) (concat tl)).
    { clear l m tl tm. intros [|a l] tl E; cbn in E; [injection E as <-; exact I|]. destruct (describe_dim sb what a) as [t|] eqn:Ea; cbn in E; [|discriminate E]. destruct (omapM _ l); cbn in E; [|discriminate E]. injection E as <-.
      destruct (Hd a t Ea) as (c & r & -> & D). cbn. destruct (Ascii.eqb_spec c "009"); [subst c; discriminate D|reflexivity]. }
    revert m tl tm. induction l as [|a l IH]; intros [|b m] tl tm El Em H; cbn in El, Em.
    - reflexivity.
    - injection El as <-. destruct (describe_dim sb what b) as [t|] eqn:Eb; cbn in Em; [|discriminate Em]. destruct (omapM _ m); cbn in Em; [|discriminate Em]. injection Em as <-.
      destruct (Hd b t Eb) as (c & r & -> & _). discriminate H.
    - injection Em as <-. destruct (describe_dim sb what a) as [t|] eqn:Eb; cbn in El; [|discriminate El]. destruct (omapM _ l); cbn in El; [|discriminate El]. injection El as <-.
      destruct (Hd a t Eb) as (c & r & -> & _). discriminate H.
    - destruct (describe_dim sb what a) as [t|] eqn:Ea; cbn in El; [|discriminate El]. destruct (omapM _ l) as [t'|] eqn:El'; cbn in El; [|discriminate El]. injection El as <-.
      destruct (describe_dim sb what b) as [u|] eqn:Eb; cbn in Em; [|discriminate Em]. destruct (omapM _ m) as [u'|] eqn:Em'; cbn in Em; [|discriminate Em]. injection Em as <-.
      cbn in H. destruct (dim_readable what c0 w0 Ew N a b t u _ _ Ea Eb (Y l t' El') (Y m u' Em') H) as [-> H']. f_equal. exact (IH m t' u' eq_refl Em' H').
  Qed.
  Lemma describe_inj what c0 w0 cs ds t : what = c0 :: w0 -> ndigit c0 = true -> describe sb what cs = Some t -> describe sb what ds = Some t -> cs = ds.
  Proof.
    intros Ew N Ec Ed. unfold describe in *. destruct (omapM _ (combine _ cs)) as [a|] eqn:Ea; cbn in Ec; [|discriminate Ec]. destruct (omapM _ (combine _ ds)) as [b|] eqn:Eb; cbn in Ed; [|discriminate Ed].
    injection Ec as <-. injection Ed as E. symmetry in E. apply (dims_split what c0 w0 _ _ a b Ew N Ea Eb) in E. now apply combine_seq_inj in E.
  Qed.
End Desc.
Lemma describe_total {B} (sb : B -> option text) what cs : (forall x, In x (concat (concat cs)) -> exists t, sb (snd x) = Some t) -> exists t, describe sb what cs = Some t.
Proof.
  intros H. unfold describe.
  assert (V : forall v, (forall x, In x v -> exists t, sb (snd x) = Some t) -> exists t, show_vector sb v = Some t).
  { intros [|a v] K; [eexists; reflexivity|]. cbn. destruct (K a (or_introl eq_refl)) as [t E]. unfold show_first. rewrite E. cbn [obind].
    destruct (omapM_total (show_other sb) v) as [m Em]; [|rewrite Em; cbn; eauto]. apply Forall_forall. intros x Hx. destruct (K x (or_intror Hx)) as [u Eu]. unfold show_other. rewrite Eu. cbn. eauto. }
  destruct (omapM_total (describe_dim sb what) (combine (seq 0 (length cs)) cs)) as [m ->]; [|cbn; eauto].
  apply Forall_forall. intros [i vs] Hi. unfold describe_dim. cbn [fst snd]. apply in_combine_r in Hi.
  match goal with |- exists _, (do _ <- omapM ?f _; _) = _ => destruct (omapM_total f vs) as [l ->] end; [|cbn -[show_nat]; eauto].
  apply Forall_forall. intros v Hv. destruct (V v) as [t ->]; [|cbn; eauto]. intros x Hx. apply H. apply in_concat. exists v. split; [|exact Hx]. apply in_concat. exists vs. auto.
Qed.

(** Strings of bits *)
Lemma omapM_ok {A C} (f : A -> option C) (g : A -> C) l : (forall x, In x l -> f x = Some (g x)) -> omapM f l = Some (map g l).
Proof. induction l as [|x l IH]; intros H; [reflexivity|]. cbn. rewrite (H x (or_introl eq_refl)). cbn. rewrite IH by (intros y Hy; apply H; now right). reflexivity. Qed.
Lemma bits_split l m r s : stops (fun c => negb (Ascii.eqb c "0") && negb (Ascii.eqb c "1")) r -> stops (fun c => negb (Ascii.eqb c "0") && negb (Ascii.eqb c "1")) s ->
  concat (map show_bit l) ++ r = concat (map show_bit m) ++ s -> l = m /\ r = s.
Proof.
  intros Sr Ss. revert m. induction l as [|a l IH]; intros [|b m] H; cbn [map concat app] in H.
  - auto.
  - subst r. destruct b; discriminate Sr.
  - subst s. destruct a; discriminate Ss.
  - destruct a, b; cbn in H; try discriminate H; injection H as H; apply IH in H; destruct H as [-> ->]; auto.
Qed.

(** Names of vertices *)
Definition plain (s : string) : Prop := Forall (fun c => c <> "("%char /\ c <> ","%char /\ c <> ")"%char) (lit s).
Lemma upto_split (c0 : ascii) a b r s : Forall (fun c => c <> c0) a -> Forall (fun c => c <> c0) b -> a ++ c0 :: r = b ++ c0 :: s -> a = b /\ r = s.
Proof.
  revert b. induction a as [|x a IH]; intros [|y b] Fa Fb H; cbn in H.
  - injection H as ->. auto.
  - injection H as E _. inversion Fb; subst. congruence.
  - injection H as E _. inversion Fa; subst. congruence.
  - injection H as -> H. inversion Fa; inversion Fb; subst. destruct (IH b) as [-> ->]; auto.
Qed.
Definition vertex_ok (v : svertex) : Prop := match v with Essential s => plain s | Redundant s t _ n d => plain s /\ plain t /\ 0 < d end.

Lemma show_rational_no_paren r : Forall (fun c => c <> ")"%char) (show_rational r).
Proof.
  assert (D : forall u, Forall (fun c => c <> ")"%char) (lit (NilEmpty.string_of_uint u))).
  { intros u. apply (Forall_impl _ (P := fun c => digit c = true)); [|apply uint_digits]. intros c H ->. discriminate H. }
  assert (Z : forall z, Forall (fun c => c <> ")"%char) (show_Z z)).
  { intros z. destruct (show_Z_cases z) as [(u & _ & _ & -> & _)|(u & _ & _ & -> & _)]; [apply D|constructor; [discriminate|apply D]]. }
  unfold show_rational. apply Forall_app. split; [destruct (sign r); repeat constructor; discriminate|]. destruct (den r =? 1)%Z; [apply Z|]. apply Forall_app. split; [apply Z|]. constructor; [discriminate|apply Z].
Qed.
Lemma rnew_value n d r : 0 < d -> rnew nonneg (Z.of_nat n) (Z.of_nat d) = Some r -> (0 <= num r)%Z /\ (num r * Z.of_nat d = Z.of_nat n * den r)%Z /\ (0 < den r)%Z /\ sign r = true.
Proof.
  intros Hd E. unfold rnew in E. destruct (Z.eqb_spec (Z.of_nat d) 0); [lia|]. rewrite !Z.abs_eq in E by lia. unfold nonneg in E.
  rewrite !(proj2 (Z.leb_le _ _)) in E by lia. cbn [obind] in E. unfold optimize in E. cbn [num den sign] in E.
  destruct (Z.eqb_spec (Z.of_nat n) 0) as [Z0|Z0].
  - injection E as <-. cbn. lia.
  - set (g := Z.gcd (Z.of_nat n) (Z.of_nat d)) in *. assert (Hg : (0 < g)%Z) by (pose proof (Z.gcd_nonneg (Z.of_nat n) (Z.of_nat d)); destruct (Z.eq_dec g 0) as [K|K]; [apply Z.gcd_eq_0 in K; lia|unfold g in *; lia]).
    unfold udiv in E. destruct (Z.eqb_spec g 0); [lia|]. cbn [obind] in E. injection E as <-. cbn [num den sign].
    destruct (Z.gcd_divide_l (Z.of_nat n) (Z.of_nat d)) as [a Ha]. destruct (Z.gcd_divide_r (Z.of_nat n) (Z.of_nat d)) as [b Hb]. fold g in Ha, Hb. rewrite Ha, Hb, !Z.div_mul by lia.
    repeat split; try nia.
Qed.
Lemma rnew_total n d : 0 < d -> exists r, rnew nonneg (Z.of_nat n) (Z.of_nat d) = Some r.
Proof.
  intros Hd. unfold rnew. destruct (Z.eqb_spec (Z.of_nat d) 0); [lia|]. rewrite !Z.abs_eq by lia. unfold nonneg.
  rewrite !(proj2 (Z.leb_le _ _)) by lia. cbn [obind]. unfold optimize. cbn [num den sign].
  destruct (Z.eqb_spec (Z.of_nat n) 0) as [Z0|Z0]; [eauto|]. set (g := Z.gcd (Z.of_nat n) (Z.of_nat d)) in *. unfold udiv. destruct (Z.eqb_spec g 0) as [K|K]; [apply Z.gcd_eq_0 in K; lia|]. cbn [obind]. eauto.
Qed.
Lemma plain_paren s c : plain s -> c = "("%char \/ c = ","%char \/ c = ")"%char -> Forall (fun x => x <> c) (lit s).
Proof. intros H Hc. unfold plain in H. eapply Forall_impl; [|exact H]. cbn. intros x (A & B & C). destruct Hc as [->|[->| ->]]; assumption. Qed.
(** Two vertices with the same name are the same vertex; for inner vertices, the positions are equal as numbers. *)
Definition same_vertex (u v : svertex) : Prop :=
  match u, v with
  | Essential s, Essential t => s = t
  | Redundant s t k n d, Redundant s' t' k' n' d' => s = s' /\ t = t' /\ k = k' /\ n * d' = n' * d
  | _, _ => False
  end.
Lemma svertex_inj u v t : vertex_ok u -> vertex_ok v -> show_svertex u = Some t -> show_svertex v = Some t -> same_vertex u v.
Proof.
  intros Ou Ov Eu Ev. destruct u as [s|s1 s2 k n d], v as [s'|s1' s2' k' n' d']; cbn -[lit show_rational show_nat rnew] in *.
  - injection Eu as <-. injection Ev as E. symmetry. now apply lit_inj.
  - injection Eu as <-. destruct (rnew _ _ _) as [r|]; cbn -[lit show_rational show_nat rnew] in Ev; [|discriminate Ev]. injection Ev as E. destruct Ou as [|c l K]; [discriminate E|].
    apply (f_equal (hd " "%char)) in E. cbn in E. destruct K as [K _]. congruence.
  - injection Ev as <-. destruct (rnew _ _ _) as [r|]; cbn -[lit show_rational show_nat rnew] in Eu; [|discriminate Eu]. injection Eu as E. destruct Ov as [|c l K]; [discriminate E|].
    apply (f_equal (hd " "%char)) in E. cbn in E. destruct K as [K _]. congruence.
  - destruct (rnew nonneg (Z.of_nat n) _) as [r|] eqn:Er; cbn -[lit show_rational show_nat rnew] in Eu; [|discriminate Eu]. destruct (rnew nonneg (Z.of_nat n') _) as [r'|] eqn:Er'; cbn -[lit show_rational show_nat rnew] in Ev; [|discriminate Ev].
    injection Eu as <-. injection Ev as E. destruct Ou as (O1 & O2 & O3), Ov as (O1' & O2' & O3').
    change (lit "(") with ["("%char] in E. change (lit ")(") with [")"%char; "("%char] in E. change (lit ", ") with [","%char; " "%char] in E. change (lit ")") with [")"%char] in E. cbn [app] in E. try (injection E as E).
    apply upto_split in E; [|apply show_rational_no_paren|apply show_rational_no_paren]. destruct E as [R E]. injection E as E.
    apply upto_split in E; [|apply plain_paren; auto|apply plain_paren; auto]. destruct E as [S1 E]. injection E as E.
    apply upto_split in E; [|apply plain_paren; auto|apply plain_paren; auto]. destruct E as [S2 E]. apply lit_inj in S1, S2.
    destruct (rnew_value n d r O3 Er) as (N1 & V1 & D1 & G1), (rnew_value n' d' r' O3' Er') as (N2 & V2 & D2 & G2). apply show_rational_inj in R; try assumption. subst r'.
    repeat split; auto.
    + destruct (Nat.eqb_spec k 0) as [->|Hk]; destruct (Nat.eqb_spec k' 0) as [->|Hk']; auto.
      * destruct (show_nat_head k') as (c & q & K & _). rewrite K in E. discriminate E.
      * destruct (show_nat_head k) as (c & q & K & _). rewrite K in E. discriminate E.
      * symmetry. now apply show_nat_inj.
    + apply Nat2Z.inj. rewrite !Nat2Z.inj_mul. nia.
Qed.
