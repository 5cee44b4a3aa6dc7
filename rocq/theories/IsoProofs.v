(** Two descriptions of one quotient are isomorphic groups; their divisors agree up to sign and units. *)
From Coq Require Import List Arith ZArith Bool Lia ZifyBool ZifyNat Sorted Cantor ConstructiveEpsilon.
From Verif Require Import PidModel LinModel LinSpec LinProofs3 HomModel HomSpec IsoSpec.
Import ListNotations.
Open Scope Z_scope.

(** ** Integer lists are enumerable *)
Definition zdec (n : nat) : Z := if Nat.even n then Z.of_nat (Nat.div2 n) else - Z.of_nat (Nat.div2 n) - 1.
Lemma zdec_surj z : exists n, zdec n = z.
Proof.
  destruct (Z_le_gt_dec 0 z) as [H|H].
  - exists (2 * Z.to_nat z)%nat. unfold zdec. rewrite Nat.even_mul. cbn [Nat.even orb]. rewrite Nat.div2_double. lia.
  - exists (S (2 * Z.to_nat (- z - 1)))%nat. unfold zdec. rewrite Nat.even_succ, <- Nat.negb_even, Nat.even_mul. cbn [Nat.even orb negb]. rewrite Nat.div2_succ_double. lia.
Qed.
Fixpoint ldec (fuel n : nat) : list Z :=
  match fuel, n with S f, S m => let p := Cantor.of_nat m in zdec (fst p) :: ldec f (snd p) | _, _ => [] end.
Lemma ldec_surj l : exists n, forall fuel, (n <= fuel)%nat -> ldec fuel n = l.
Proof.
  induction l as [|z l (n & IH)]. { exists 0%nat. intros [|f] _; reflexivity. }
  destruct (zdec_surj z) as (a & Ha). exists (S (Cantor.to_nat (a, n))). intros [|f] Hf; [lia|]. cbn [ldec]. rewrite Cantor.cancel_of_to. cbn [fst snd]. rewrite Ha. f_equal. apply IH.
  pose proof (Cantor.to_nat_non_decreasing a n). lia.
Qed.
Definition enum (n : nat) : list Z := ldec n n.
Lemma enum_surj l : exists n, enum n = l.
Proof. destruct (ldec_surj l) as (n & H). exists n. apply H. lia. Qed.
Lemma choose (P : list Z -> Prop) : (forall x, {P x} + {~ P x}) -> (exists x, P x) -> {x | P x}.
Proof.
  intros HD HE. destruct (constructive_indefinite_ground_description_nat (fun n => P (enum n)) (fun n => HD (enum n))) as (n & Hn).
  - destruct HE as (x & Hx). destruct (enum_surj x) as (n & <-). now exists n.
  - exists (enum n). exact Hn.
Qed.
Lemma geq_dec ms x y : {geq ms x y} + {~ geq ms x y}.
Proof.
  unfold geq. destruct (Nat.eq_dec (length x) (length ms)) as [E1|]; [|right; tauto]. destruct (Nat.eq_dec (length y) (length ms)) as [E2|]; [|right; tauto].
  destruct (forallb (fun i => if Znumtheory.Zdivide_dec (nth i ms 0) (nth i x 0 - nth i y 0) then true else false) (seq 0 (length ms))) eqn:E.
  - left. rewrite forallb_forall in E. repeat split; auto. intros i Hi. specialize (E i ltac:(apply in_seq; lia)). now destruct (Znumtheory.Zdivide_dec _ _).
  - right. intros (_ & _ & H). assert (K : forallb (fun i => if Znumtheory.Zdivide_dec (nth i ms 0) (nth i x 0 - nth i y 0) then true else false) (seq 0 (length ms)) = true); [|congruence].
    apply forallb_forall. intros i Hi. apply in_seq in Hi. destruct (Znumtheory.Zdivide_dec _ _) as [|N]; [reflexivity|]. exfalso. apply N, H. lia.
Qed.

(** ** Uniqueness of the quotient *)
Definition gneg (x : list Z) : list Z := map Z.opp x.
Lemma gneg_length x : length (gneg x) = length x. Proof. apply map_length. Qed.
Lemma gneg_nth x i : nth i (gneg x) 0 = - nth i x 0. Proof. unfold gneg. change 0 with (- 0) at 1. now rewrite map_nth. Qed.
Lemma nth_zeros (ms : list Z) i : nth i (map (fun _ => 0) ms) 0 = 0.
Proof. revert i. induction ms as [|m ms IH]; intros [|i]; cbn; auto. Qed.
Lemma gadd_cancel ms x y z : gelt ms x -> gelt ms y -> gelt ms z -> (geq ms (gadd x z) (gadd y z) <-> geq ms x y).
Proof.
  unfold gelt. intros Hx Hy Hz. unfold geq. rewrite !gadd_length, Hx, Hy, Hz, Nat.min_id. split; intros (_ & _ & H); (split; [reflexivity|]); (split; [reflexivity|]); intros i Hi; specialize (H i Hi); rewrite !gadd_nth in * by lia.
  - replace (nth i x 0 - nth i y 0) with (nth i x 0 + nth i z 0 - (nth i y 0 + nth i z 0)) by lia. exact H.
  - replace (nth i x 0 + nth i z 0 - (nth i y 0 + nth i z 0)) with (nth i x 0 - nth i y 0) by lia. exact H.
Qed.
Lemma list_ext (x y : list Z) : length x = length y -> (forall i, nth i x 0 = nth i y 0) -> x = y.
Proof. intros L H. apply (nth_ext x y 0 0 L). intros i _. apply H. Qed.

Section Quot.
  Variables (n : nat) (Cyc Bnd : list Z -> Prop).
  Hypothesis Cdec : forall x, {Cyc x} + {~ Cyc x}.
  Hypothesis Clen : forall x, Cyc x -> length x = n.
  Hypothesis Cadd : forall x y, Cyc x -> Cyc y -> Cyc (gadd x y).
  Hypothesis Cneg : forall x, Cyc x -> Cyc (gneg x).
  Set Default Proof Using "All".
  Definition hom_onto (ms : list Z) (phi : list Z -> list Z) : Prop :=
    (forall x, Cyc x -> gelt ms (phi x)) /\ (forall x y, Cyc x -> Cyc y -> geq ms (phi (gadd x y)) (gadd (phi x) (phi y))) /\
    (forall x, Cyc x -> (geq ms (phi x) (map (fun _ => 0) ms) <-> Bnd x)) /\ (forall g, gelt ms g -> exists x, Cyc x /\ geq ms (phi x) g).
  Lemma same_class ms phi x y : hom_onto ms phi -> Cyc x -> Cyc y -> (geq ms (phi x) (phi y) <-> Bnd (gadd x (gneg y))).
  Proof.
    intros (P1 & P2 & P3 & P4) Hx Hy. set (z := gneg y). assert (Hz : Cyc z) by now apply Cneg. set (o := gadd y z). assert (Ho : Cyc o) by now apply Cadd.
    assert (Lx := Clen x Hx). assert (Ly := Clen y Hy). assert (Lz : length z = n) by (unfold z; now rewrite gneg_length).
    assert (Oo : gadd o o = o). { unfold o. apply list_ext; [rewrite !gadd_length; lia|]. intros i. rewrite !gadd_nth by (rewrite ?gadd_length; lia). unfold z. rewrite gneg_nth. lia. }
    assert (Go := P1 o Ho). assert (Lo : length (map (fun _ : Z => 0) ms) = length ms) by apply map_length.
    assert (Z0 : geq ms (phi o) (map (fun _ => 0) ms)).
    { pose proof (P2 o o Ho Ho) as K. rewrite Oo in K. destruct K as (_ & _ & K). split; [exact Go|]. split; [exact Lo|]. intros i Hi. specialize (K i Hi). rewrite gadd_nth in K by reflexivity. rewrite nth_zeros.
      apply Z.divide_opp_r in K. replace (- (nth i (phi o) 0 - (nth i (phi o) 0 + nth i (phi o) 0))) with (nth i (phi o) 0) in K by lia. now rewrite Z.sub_0_r. }
    rewrite <- (P3 (gadd x z)) by now apply Cadd. rewrite <- (gadd_cancel ms (phi x) (phi y) (phi z)) by now apply P1.
    assert (A := P2 x z Hx Hz). assert (B := P2 y z Hy Hz). fold o in B. split; intros H.
    - eapply geq_trans; [exact A|]. eapply geq_trans; [exact H|]. eapply geq_trans; [apply geq_sym, B|exact Z0].
    - eapply geq_trans; [apply geq_sym, A|]. eapply geq_trans; [exact H|]. eapply geq_trans; [apply geq_sym, Z0|exact B].
  Qed.
  Definition section ms phi (H : hom_onto ms phi) (g : list Z) : list Z.
  Proof.
    destruct (Nat.eq_dec (length g) (length ms)) as [E|].
    - refine (proj1_sig (choose (fun x => Cyc x /\ geq ms (phi x) g) _ (proj2 (proj2 (proj2 H)) g E))).
      intros x. destruct (Cdec x) as [A|A]; [|right; tauto]. destruct (geq_dec ms (phi x) g) as [B|B]; [left; tauto|right; tauto].
    - exact [].
  Defined.
  Lemma section_ok ms phi H g : gelt ms g -> Cyc (section ms phi H g) /\ geq ms (phi (section ms phi H g)) g.
  Proof.
    intros E. unfold section. destruct (Nat.eq_dec _ _) as [E'|N]; [|contradiction]. destruct (choose _ _ _) as (x & Hx). exact Hx.
  Qed.
  Lemma iso_hom ms ns phi psi (H : hom_onto ms phi) : hom_onto ns psi -> ghom ms ns (fun g => psi (section ms phi H g)).
  Proof.
    intros (Q1 & Q2 & Q3 & Q4). pose proof (conj Q1 (conj Q2 (conj Q3 Q4)) : hom_onto ns psi) as HQ. destruct H as (P1 & P2 & P3 & P4) eqn:EH. rewrite <- EH. clear EH P1 P2 P3 P4. split; [|split].
    - intros x Hx. apply Q1, section_ok, Hx.
    - intros x y E. assert (Gx : gelt ms x) by apply E. assert (Gy : gelt ms y) by apply E. destruct (section_ok ms phi H x Gx) as (A1 & A2). destruct (section_ok ms phi H y Gy) as (B1 & B2).
      apply (same_class ns psi _ _ HQ A1 B1), (same_class ms phi _ _ H A1 B1). eapply geq_trans; [exact A2|]. eapply geq_trans; [exact E|]. now apply geq_sym.
    - intros x y Gx Gy. destruct (section_ok ms phi H x Gx) as (A1 & A2). destruct (section_ok ms phi H y Gy) as (B1 & B2). destruct (section_ok ms phi H (gadd x y) (gelt_gadd _ _ _ Gx Gy)) as (C1 & C2).
      assert (AB : Cyc (gadd (section ms phi H x) (section ms phi H y))) by now apply Cadd.
      eapply geq_trans; [|apply Q2; assumption]. apply (same_class ns psi _ _ HQ C1 AB), (same_class ms phi _ _ H C1 AB).
      eapply geq_trans; [exact C2|]. apply geq_sym. eapply geq_trans; [apply (proj1 (proj2 H)); assumption|]. now apply geq_gadd.
  Qed.
  Lemma iso_inv ms ns phi psi (H : hom_onto ms phi) (K : hom_onto ns psi) g : gelt ms g -> geq ms (phi (section ns psi K (psi (section ms phi H g)))) g.
  Proof.
    intros G. destruct (section_ok ms phi H g G) as (A1 & A2). assert (G2 : gelt ns (psi (section ms phi H g))) by now apply (proj1 K). destruct (section_ok ns psi K _ G2) as (B1 & B2).
    eapply geq_trans; [|exact A2]. apply (same_class ms phi _ _ H B1 A1), (same_class ns psi _ _ K B1 A1). exact B2.
  Qed.
  Lemma quotient_unique ms ns : quotient_is Cyc Bnd ms -> quotient_is Cyc Bnd ns -> group_iso ms ns.
  Proof.
    intros (phi & H) (psi & K). exists (fun g => psi (section ms phi H g)), (fun g => phi (section ns psi K g)). split; [now apply iso_hom|]. split; [now apply iso_hom|]. split; intros; now apply iso_inv.
  Qed.
End Quot.

(** Transport of a quotient along a bijection. *)
Lemma quotient_transport (Cyc Bnd Cyc' Bnd' : list Z -> Prop) (u : list Z -> list Z) ms :
  (forall x, Cyc' x -> Cyc (u x)) -> (forall x y, Cyc' x -> Cyc' y -> u (gadd x y) = gadd (u x) (u y)) -> (forall x, Cyc' x -> (Bnd (u x) <-> Bnd' x)) ->
  (forall x, Cyc x -> exists x', Cyc' x' /\ u x' = x) -> quotient_is Cyc Bnd ms -> quotient_is Cyc' Bnd' ms.
Proof.
  intros U1 U2 U3 U4 (phi & P1 & P2 & P3 & P4). exists (fun x => phi (u x)). split; [|split; [|split]].
  - intros x Hx. apply P1, U1, Hx.
  - intros x y Hx Hy. rewrite U2 by assumption. apply P2; now apply U1.
  - intros x Hx. rewrite P3 by now apply U1. now apply U3.
  - intros g Hg. destruct (P4 g Hg) as (x & Cx & Ex). destruct (U4 x Cx) as (x' & Cx' & <-). now exists x'.
Qed.

(** ** The divisors *)
Lemma rle l : Forall (fun d => 1 < d) l -> StronglySorted Z.divide l -> exists ds, invariant_factors ds /\ flat_map (fun d => repeat (fst d) (snd d)) ds = l.
Proof.
  induction l as [|a l IH]; intros HF HS. { exists []. split; [split; constructor|reflexivity]. }
  inversion HF as [|? ? Ha HF']; subst. inversion HS as [|? ? HS' HD]; subst. destruct (IH HF' HS') as (ds & (I1 & I2) & E).
  destruct ds as [|[d m] t]. { exists [(a, 1%nat)]. split; [split; repeat constructor; cbn; lia|]. cbn in *. now rewrite <- E. }
  inversion I1 as [|? ? [H1 H2] I1']; subst. inversion I2 as [|? ? I2' I2d]; subst. cbn [fst snd] in *. destruct (Z.eq_dec a d) as [->|N].
  - exists ((d, S m) :: t). split; [|cbn [flat_map fst snd repeat app]; reflexivity]. split; [constructor; [cbn; lia|exact I1']|constructor; [exact I2'|]].
    eapply Forall_impl; [|exact I2d]. cbn. tauto.
  - exists ((a, 1%nat) :: (d, m) :: t). split; [|cbn [flat_map fst snd repeat app]; reflexivity]. rewrite Forall_forall in HD.
    assert (Ad : (a | d)). { apply HD. cbn [flat_map fst snd]. apply in_or_app. left. destruct m; [lia|]. now left. }
    assert (Lt : a < d) by (apply Z.divide_pos_le in Ad; lia). split; [constructor; [cbn; lia|exact I1]|]. constructor; [exact I2|]. constructor; [cbn; tauto|].
    rewrite Forall_forall in I2d |- *. intros [e k] He. destruct (I2d _ He) as [D1 D2]. cbn [fst] in *. split; [now apply Z.divide_trans with d|lia].
Qed.
Lemma group_iso_abs r l : group_iso (repeat 0 r ++ l) (repeat 0 r ++ map Z.abs l).
Proof.
  set (ms := repeat 0 r ++ l). set (ns := repeat 0 r ++ map Z.abs l).
  assert (L : length ms = length ns) by (unfold ms, ns; now rewrite !app_length, map_length).
  assert (N : forall i, Z.abs (nth i ms 0) = Z.abs (nth i ns 0)).
  { intros i. unfold ms, ns. destruct (Nat.lt_ge_cases i r) as [H|H].
    - rewrite !app_nth1 by (rewrite repeat_length; lia). reflexivity.
    - rewrite !app_nth2 by (rewrite repeat_length; lia). rewrite repeat_length. change 0 with (Z.abs 0) at 2. rewrite map_nth. lia. }
  assert (G : forall x y, geq ms x y <-> geq ns x y).
  { intros x y. unfold geq. rewrite L. split; intros (A & B & C); (split; [exact A|]); (split; [exact B|]); intros i Hi; specialize (C i Hi); apply Z.divide_abs_l; [rewrite <- N|rewrite N]; now apply Z.divide_abs_l. }
  exists (fun x => x), (fun x => x). split; [|split; [|split]].
  - split; [unfold gelt; intros; lia|]. split; [intros; now apply G|]. intros x y Hx Hy. apply G, geq_refl, gelt_gadd; assumption.
  - split; [unfold gelt; intros; lia|]. split; [intros; now apply G|]. intros x y Hx Hy. apply G, geq_refl, gelt_gadd; assumption.
  - intros. now apply geq_refl.
  - intros. now apply geq_refl.
Qed.
Lemma filter_sorted {A} (R : A -> A -> Prop) p l : StronglySorted R l -> StronglySorted R (filter p l).
Proof.
  induction 1 as [|a l HS IH HF]; cbn [filter]; [constructor|]. destruct (p a); [|exact IH]. constructor; [exact IH|]. rewrite Forall_forall in HF |- *. intros x Hx. apply filter_In in Hx. apply HF, Hx.
Qed.
Lemma abs_sorted l : StronglySorted Z.divide l -> StronglySorted Z.divide (map Z.abs l).
Proof.
  induction 1 as [|a l HS IH HF]; cbn [map]; constructor; [exact IH|]. rewrite Forall_forall in HF |- *. intros x Hx. apply in_map_iff in Hx. destruct Hx as (y & <- & Hy). apply Z.divide_abs_l, Z.divide_abs_r. auto.
Qed.
Lemma normal_form r ds : Forall (fun d => fst d <> 0) ds -> StronglySorted Z.divide (flat_map (fun d => repeat (fst d) (snd d)) ds) ->
  exists es, invariant_factors es /\ flat_map (fun d => repeat (fst d) (snd d)) es = proper_divisors ds /\ group_iso (group_of r ds) (group_of r es).
Proof.
  intros HN HS. set (l := flat_map (fun d => repeat (fst d) (snd d)) ds) in *.
  assert (NZ : Forall (fun d => d <> 0) l).
  { apply Forall_forall. intros x Hx. apply in_flat_map in Hx. destruct Hx as ([d m] & Hd & Hx). apply repeat_spec in Hx. subst x. rewrite Forall_forall in HN. now apply (HN _ Hd). }
  destruct (rle (proper_divisors ds)) as (es & I & E).
  - apply Forall_forall. intros x Hx. unfold proper_divisors in Hx. apply filter_In in Hx. destruct Hx as [Hx Hn]. apply in_map_iff in Hx. destruct Hx as (y & <- & Hy). rewrite Forall_forall in NZ. specialize (NZ _ Hy). lia.
  - apply filter_sorted, abs_sorted, HS.
  - exists es. split; [exact I|]. split; [exact E|]. eapply group_iso_trans; [apply (group_iso_abs r l)|]. eapply group_iso_trans; [apply group_iso_keep|].
    replace (keep (repeat 0 r ++ map Z.abs l)) with (group_of r es); [apply group_iso_refl|]. unfold group_of. rewrite E. unfold keep, proper_divisors. fold l. rewrite filter_app. f_equal.
    induction r as [|r IH]; [reflexivity|]. cbn. now rewrite <- IH.
Qed.
Lemma divisors_unique r ds s es : Forall (fun d => fst d <> 0) ds -> Forall (fun d => fst d <> 0) es ->
  StronglySorted Z.divide (flat_map (fun d => repeat (fst d) (snd d)) ds) -> StronglySorted Z.divide (flat_map (fun d => repeat (fst d) (snd d)) es) ->
  group_iso (group_of r ds) (group_of s es) -> r = s /\ proper_divisors ds = proper_divisors es.
Proof.
  intros N1 N2 S1 S2 H. destruct (normal_form r ds N1 S1) as (ds' & I1 & E1 & G1). destruct (normal_form s es N2 S2) as (es' & I2 & E2 & G2).
  destruct (groups_unique r s ds' es' I1 I2) as [R E]; [|split; [exact R|]; rewrite <- E1, <- E2, E; reflexivity].
  eapply group_iso_trans; [apply group_iso_sym, G1|]. eapply group_iso_trans; [exact H|exact G2].
Qed.
