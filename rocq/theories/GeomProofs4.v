(** One insertion keeps a Delaunay triangulation of the auxiliary triangle: the invariants, for any symmetric relation [Tri]. *)
From Coq Require Import Reals List Arith Lia Lra Psatz Classical.
From Verif Require Import GeomSpec GeomProofs2.
Import ListNotations.
Open Scope R_scope.

Lemma enum_pred (S : nat -> Prop) N : (forall c, S c -> (c < N)%nat) -> exists l, NoDup l /\ forall c, In c l <-> S c.
Proof.
  revert S. induction N as [|N IH]; intros S H.
  - exists []. split; [constructor|]. intros c. split; [easy|]. intros Hc. apply H in Hc. lia.
  - destruct (IH (fun c => S c /\ c <> N)) as (l & Hnd & Hl).
    { intros c [Hc Hn]. apply H in Hc. lia. }
    destruct (classic (S N)) as [HN|HN].
    + exists (N :: l). split; [constructor; [rewrite Hl; tauto|easy]|]. intros c. cbn. rewrite Hl.
      destruct (Nat.eq_dec c N) as [->|]; [tauto|]. intuition congruence.
    + exists l. split; [easy|]. intros c. rewrite Hl. split; [tauto|]. intros Hc. split; [easy|]. intros ->. easy.
Qed.

Lemma pigeon (S : nat -> Prop) (R : nat -> nat -> Prop) N a :
  (forall c, S c -> (c < N)%nat) -> S a -> (forall c, S c -> exists d, S d /\ d <> a /\ R c d) ->
  (forall c c' d, S c -> S c' -> R c d -> R c' d -> c = c') -> False.
Proof.
  intros Hb Ha Hn Hi. destruct (enum_pred S N Hb) as (l & Hnd & Hl).
  assert (forall l', NoDup l' -> (forall c, In c l' -> S c) -> exists D, length D = length l' /\ NoDup D /\ forall d, In d D -> (S d /\ d <> a) /\ exists c, In c l' /\ R c d) as G.
  { induction l' as [|c l' IH]; intros Hnd' Hs'; [exists []; repeat split; [constructor|easy..]|].
    inversion Hnd'; subst. destruct IH as (D & HD1 & HD2 & HD3); [easy|intros; apply Hs'; now right|].
    destruct (Hn c) as (d & Hd1 & Hd2 & Hd3); [apply Hs'; now left|]. exists (d :: D). split; [cbn; lia|]. split.
    - constructor; [|easy]. intros Hin. apply HD3 in Hin as (_ & c' & Hc' & HR). assert (c = c') as -> by (apply (Hi c c' d); auto; apply Hs'; cbn; auto). easy.
    - intros d' [<-|Hd']; [split; [easy|]; exists c; cbn; auto|]. apply HD3 in Hd' as (? & c' & ? & ?). split; [easy|]. exists c'. cbn. auto. }
  destruct (G l Hnd) as (D & HD1 & HD2 & HD3); [intros c; apply Hl|].
  assert (NoDup (a :: D)) as Hnd2. { constructor; [|easy]. intros H. apply HD3 in H as [[_ H] _]. easy. }
  apply NoDup_incl_length with (l' := l) in Hnd2; [cbn in Hnd2; lia|].
  intros d [<-|Hd]; [now apply Hl|]. apply Hl. now apply HD3 in Hd as [[H _] _].
Qed.

Section Step.
  Variable P : nat -> pt.
  Variable Nv : nat.
  Variable hull : nat -> nat -> Prop.
  Notation o a b c := (orient (P a) (P b) (P c)).
  Notation ic a b c q := (incirc (P a) (P b) (P c) (P q)).

  Record Inv (V : nat -> Prop) (Tri : nat -> nat -> nat -> Prop) : Prop := {
    i_rot : forall a b c, Tri a b c -> Tri b c a;
    i_swap : forall a b c, Tri a b c -> Tri b a c;
    i_V : forall a b c, Tri a b c -> V a;
    i_nd : forall a b c, Tri a b c -> o a b c <> 0;
    i_del : forall a b c q, Tri a b c -> 0 < o a b c -> V q -> ic a b c q <= 0;
    i_uniq : forall a b c d, Tri a b c -> Tri a b d -> 0 < o a b c -> 0 < o a b d -> c = d;
    i_pair : forall a b c, Tri a b c -> 0 < o a b c -> hull a b \/ exists d, Tri a b d /\ o a b d < 0;
    i_inj : forall a b c a' b' c', Tri a b c -> Tri a' b' c' -> P a = P a' -> a = a';
    i_cov : forall a b, hull a b -> exists c, Tri a b c /\ 0 < o a b c }.

  Section OneStep.
    Variable V : nat -> Prop.
    Variable Tri : nat -> nat -> nat -> Prop.
    Hypothesis I : Inv V Tri.
    Hypothesis HV : forall a, V a -> (a < Nv)%nat.
    Hypothesis Hhull : forall a b q, hull a b -> V q -> 0 <= o a b q.
    Variable p : nat.
    Hypothesis Hp : ~ V p.
    Hypothesis Hpin : forall a b, hull a b -> 0 < o a b p.

    Definition bad (a b c : nat) : Prop := Tri a b c /\ 0 < o a b c * ic a b c p.
    Definition bdry (a b : nat) : Prop := exists c, bad a b c /\ forall d, bad a b d -> d = c.
    Definition dB (a b : nat) : Prop := exists c, bad a b c /\ 0 < o a b c /\ forall d, bad a b d -> d = c.
    Definition Tri' (a b c : nat) : Prop :=
      (Tri a b c /\ ~ bad a b c) \/ (c = p /\ bdry a b) \/ (a = p /\ bdry b c) \/ (b = p /\ bdry c a).

    Lemma bad_rot a b c : bad a b c -> bad b c a.
    Proof. intros [H1 H2]. split; [now apply (i_rot V Tri I)|]. now rewrite orient_rot, incirc_rot. Qed.
    Lemma bad_swap a b c : bad a b c -> bad b a c.
    Proof. intros [H1 H2]. split; [now apply (i_swap V Tri I)|]. rewrite orient_swap, incirc_swap. lra. Qed.
    Lemma bdry_swap a b : bdry a b -> bdry b a.
    Proof. intros (c & H1 & H2). exists c. split; [now apply bad_swap|]. intros d Hd. apply H2. now apply bad_swap. Qed.
    Lemma tri_rot a b c : Tri a b c -> Tri b c a. Proof. apply (i_rot V Tri I). Qed.
    Lemma tri_swap a b c : Tri a b c -> Tri b a c. Proof. apply (i_swap V Tri I). Qed.
    Lemma tri_V a b c : Tri a b c -> V a /\ V b /\ V c.
    Proof.
      intros H. pose proof (tri_rot _ _ _ H) as H2. pose proof (tri_rot _ _ _ H2) as H3.
      repeat split; eapply (i_V V Tri I); eauto.
    Qed.
    Lemma bad_ic a b c : bad a b c -> 0 < o a b c -> 0 < ic a b c p.
    Proof. intros [_ H] Ho. nra. Qed.
    Lemma notbad_le a b c : Tri a b c -> ~ bad a b c -> o a b c * ic a b c p <= 0.
    Proof. intros Ht Hn. apply Rnot_lt_le. intros H. apply Hn. now split. Qed.

    Lemma dB_main a b : dB a b -> 0 < o a b p /\ forall q, V q -> ic a b p q <= 0.
    Proof.
      intros (c & Hb & Ho & Hu). pose proof (bad_ic a b c Hb Ho) as Hic. destruct Hb as [Ht _].
      destruct (i_pair V Tri I a b c Ht Ho) as [Hh|(d & Hd & Hod)].
      - assert (0 < o a b p) as Hop by now apply Hpin. split; [easy|]. intros q Hq.
        apply (new_empty1 _ _ (P c)); auto. now apply (i_del V Tri I).
      - assert (~ bad a b d) as Hnd. { intros H. apply Hu in H. subst d. lra. }
        assert (0 < o a b p) as Hop.
        { apply Rnot_le_lt. intros Hle. apply Hnd. split; [easy|].
          assert (ic a b d p < 0). { apply (twin_bad _ _ (P c)); auto. apply (i_del V Tri I); auto. now apply tri_V in Hd. } nra. }
        split; [easy|]. intros q Hq. destruct (Rle_lt_dec 0 (o a b q)) as [Hq0|Hq0].
        + apply (new_empty1 _ _ (P c)); auto. now apply (i_del V Tri I).
        + apply (new_empty2 _ _ (P d)); auto; [|  |lra].
          * pose proof (notbad_le a b d Hd Hnd). nra.
          * pose proof (i_del V Tri I b a d q (tri_swap _ _ _ Hd)) as H. rewrite orient_swap, incirc_swap in H. specialize (H ltac:(lra) Hq). lra.
    Qed.

    Lemma bdry_dir a b : bdry a b -> dB a b \/ dB b a.
    Proof.
      intros (c & Hb & Hu). destruct (Rtotal_order 0 (o a b c)) as [H|[H|H]].
      - left. exists c. auto.
      - exfalso. destruct Hb as [Ht _]. apply (i_nd V Tri I) in Ht; lra.
      - right. exists c. split; [now apply bad_swap|]. split; [rewrite orient_swap; lra|]. intros d Hd. apply Hu. now apply bad_swap.
    Qed.
    Lemma dB_bdry a b : dB a b -> bdry a b.
    Proof. intros (c & H1 & _ & H2). exists c. auto. Qed.
    Lemma bdry_pos a b : bdry a b -> 0 < o a b p -> dB a b.
    Proof. intros H Ho. apply bdry_dir in H as [H|H]; [easy|]. apply dB_main in H as [H _]. rewrite orient_swap in H. lra. Qed.
    Lemma bdry_nd a b : bdry a b -> o a b p <> 0.
    Proof. intros H. apply bdry_dir in H as [H|H]; apply dB_main in H as [H _]; [lra|]. rewrite orient_swap in H. lra. Qed.
    Lemma bdry_V a b : bdry a b -> V a /\ V b.
    Proof. intros (c & [H _] & _). apply tri_V in H. tauto. Qed.
    Lemma dB_V a b : dB a b -> V a /\ V b.
    Proof. intros H. now apply bdry_V, dB_bdry. Qed.
    Lemma dB_tri a b : dB a b -> exists c, Tri a b c.
    Proof. intros (c & [H _] & _). eauto. Qed.

    Lemma degenerate a b c x : 0 < o a b c -> 0 < o a b p -> 0 < ic a b c p -> ic a b p x = 0 -> o a b x = 0 -> P x = P a \/ P x = P b.
    Proof.
      intros H1 H2 H3 H4 H5. pose proof (pencil (P a) (P b) (P c) (P p) (P x)) as E. rewrite H4, H5 in E.
      assert (ic a b c x = 0) as H6 by nra. unfold incirc in H6. rewrite H5 in H6.
      apply collinear_perp; [easy| |].
      - assert (gdot (P a) (P b) (P x) * o a b c = 0) by lra. apply Rmult_integral in H as [H|H]; [easy|lra].
      - intros E2. rewrite E2 in H1. unfold orient in H1. lra.
    Qed.

    Lemma dB_out a b b' : dB a b -> dB a b' -> b = b'.
    Proof.
      intros H H'. destruct (dB_main _ _ H) as [Hop He]. destruct (dB_main _ _ H') as [Hop' He'].
      destruct (dB_V _ _ H) as [Va Vb]. destruct (dB_V _ _ H') as [_ Vb'].
      pose proof (He b' Vb') as E1. pose proof (He' b Vb) as E2.
      assert (ic a b' p b = - ic a b p b') as E3 by (unfold incirc, gdot, orient; ring). 
      assert (ic a b p b' = 0) as E by lra.
      destruct H as (c & Hb & Ho & Hu). destruct H' as (c' & Hb' & Ho' & Hu').
      assert (o a b b' <= 0) as L1.
      { apply (same_side_le _ _ (P c) (P p)); auto; [now apply bad_ic|]. destruct Hb as [Ht _]. now apply (i_del V Tri I). }
      assert (o a b' b <= 0) as L2.
      { apply (same_side_le _ _ (P c') (P p)); auto; [now apply bad_ic| |lra]. destruct Hb' as [Ht _]. now apply (i_del V Tri I). }
      rewrite orient_swap2 in L2.
      destruct (degenerate a b c b') as [D|D]; auto; [now apply bad_ic|lra| |].
      - exfalso. rewrite D in Ho'. unfold orient in Ho'. lra.
      - destruct Hb as [Ht _], Hb' as [Ht' _]. symmetry. eapply (i_inj V Tri I); [apply tri_swap, Ht'|apply tri_swap, Ht|easy].
    Qed.
    Lemma dB_in a b b' : dB b a -> dB b' a -> b = b'.
    Proof.
      intros H H'. destruct (dB_main _ _ H) as [Hop He]. destruct (dB_main _ _ H') as [Hop' He'].
      destruct (dB_V _ _ H) as [Vb Va]. destruct (dB_V _ _ H') as [Vb' _].
      pose proof (He b' Vb') as E1. pose proof (He' b Vb) as E2.
      assert (ic b' a p b = - ic b a p b') as E3 by (unfold incirc, gdot, orient; ring). 
      assert (ic b a p b' = 0) as E by lra.
      destruct H as (c & Hb & Ho & Hu). destruct H' as (c' & Hb' & Ho' & Hu').
      assert (o b a b' <= 0) as L1.
      { apply (same_side_le _ _ (P c) (P p)); auto; [now apply bad_ic|]. destruct Hb as [Ht _]. now apply (i_del V Tri I). }
      assert (o b' a b <= 0) as L2.
      { apply (same_side_le _ _ (P c') (P p)); auto; [now apply bad_ic| |lra]. destruct Hb' as [Ht _]. now apply (i_del V Tri I). }
      assert (o b' a b = - o b a b') as L3 by (unfold orient; ring).
      destruct (degenerate b a c b') as [D|D]; auto; [now apply bad_ic|lra| |].
      - destruct Hb as [Ht _], Hb' as [Ht' _]. symmetry. eapply (i_inj V Tri I); [apply Ht'|apply Ht|easy].
      - exfalso. rewrite D in Ho'. unfold orient in Ho'. lra.
    Qed.

    Lemma walk_fwd a b : dB a b -> exists c, dB b c.
    Proof.
      intros Hab. apply NNPP. intros Hno.
      apply (pigeon (fun c => exists c2, bad c b c2 /\ 0 < o c b c2) (fun c c2 => bad c b c2 /\ 0 < o c b c2) Nv a).
      - intros c (c2 & [Ht _] & _). apply HV. now apply tri_V in Ht.
      - destruct Hab as (c & H1 & H2 & _). exists c. auto.
      - intros c (c2 & Hb & Ho). exists c2.
        assert (bad b c2 c) as Hb2 by now apply bad_rot. assert (0 < o b c2 c) as Ho2 by now rewrite orient_rot.
        assert (exists e, bad b c2 e /\ e <> c) as (e & He & Hec).
        { apply NNPP. intros Hn. apply Hno. exists c2, c. split; [easy|]. split; [easy|]. intros d Hd. apply NNPP. intros Hdc. apply Hn. eauto. }
        assert (o b c2 e < 0) as Hoe.
        { destruct (Rtotal_order 0 (o b c2 e)) as [H|[H|H]]; [| |easy].
          - exfalso. apply Hec. destruct He as [He _], Hb2 as [Hb2 _]. now apply (i_uniq V Tri I b c2).
          - exfalso. destruct He as [He _]. apply (i_nd V Tri I) in He; lra. }
        repeat split; try easy.
        + exists e. split; [now apply bad_swap|]. rewrite orient_swap. lra.
        + intros ->. destruct Hab as (c0 & H1 & H2 & H3).
          assert (c = c0) as -> by (apply H3, bad_rot, bad_rot, bad_swap, Hb).
          assert (o a b c0 = - o c0 b a) by (unfold orient; ring). lra.
        + apply Hb.
        + apply Hb.
      - intros c c' d _ _ [H1 H2] [H3 H4]. destruct H1 as [H1 _], H3 as [H3 _].
        apply (i_uniq V Tri I b d); [now apply tri_rot|now apply tri_rot|now rewrite orient_rot|now rewrite orient_rot].
    Qed.
    Lemma walk_bwd b c : dB b c -> exists a, dB a b.
    Proof.
      intros Hbc. apply NNPP. intros Hno.
      apply (pigeon (fun c => exists c2, bad b c c2 /\ 0 < o b c c2) (fun c c2 => bad b c c2 /\ 0 < o b c c2) Nv c).
      - intros x (c2 & [Ht _] & _). apply HV. now apply tri_V in Ht.
      - destruct Hbc as (x & H1 & H2 & _). exists x. auto.
      - intros x (c2 & Hb & Ho). exists c2.
        assert (bad c2 b x) as Hb2 by now apply bad_rot, bad_rot. assert (0 < o c2 b x) as Ho2 by now rewrite <- orient_rot.
        assert (exists e, bad c2 b e /\ e <> x) as (e & He & Hec).
        { apply NNPP. intros Hn. apply Hno. exists c2, x. split; [easy|]. split; [easy|]. intros d Hd. apply NNPP. intros Hdc. apply Hn. eauto. }
        assert (o c2 b e < 0) as Hoe.
        { destruct (Rtotal_order 0 (o c2 b e)) as [H|[H|H]]; [| |easy].
          - exfalso. apply Hec. destruct He as [He _], Hb2 as [Hb2 _]. now apply (i_uniq V Tri I c2 b).
          - exfalso. destruct He as [He _]. apply (i_nd V Tri I) in He; lra. }
        repeat split; try easy.
        + exists e. split; [now apply bad_swap|]. rewrite orient_swap. lra.
        + intros ->. destruct Hbc as (c0 & H1 & H2 & H3).
          assert (x = c0) as -> by (apply H3, bad_swap; easy).
          assert (o b c c0 = - o b c0 c) by (unfold orient; ring). lra.
        + apply Hb.
        + apply Hb.
      - intros x x' d _ _ [H1 H2] [H3 H4]. destruct H1 as [H1 _], H3 as [H3 _].
        apply (i_uniq V Tri I d b); [now apply tri_rot, tri_rot|now apply tri_rot, tri_rot|now rewrite <- orient_rot|now rewrite <- orient_rot].
    Qed.

    Definition V' (a : nat) : Prop := V a \/ a = p.

    Lemma Tri'_vert a b c : Tri' a b c -> a = p \/ exists y z, Tri a y z.
    Proof.
      intros [[H _]|[[-> (z & [H _] & _)]|[[-> H]|[-> (z & [H _] & _)]]]]; eauto.
      right. exists c, z. now apply tri_swap.
    Qed.
    Lemma Tri'_bad a b c : Tri' a b c -> (a = p \/ b = p \/ c = p) -> exists x y z, bad x y z /\ 0 < o x y z.
    Proof.
      intros H E. assert (exists x y, bdry x y) as (x & y & Hxy).
      { destruct H as [[H _]|[[-> H]|[[-> H]|[-> H]]]]; eauto. exfalso. apply tri_V in H. destruct H as (? & ? & ?). destruct E as [->|[->| ->]]; auto. }
      apply bdry_dir in Hxy as [(z & H1 & H2 & _)|(z & H1 & H2 & _)]; eauto.
    Qed.

    Theorem step_Inv : Inv V' Tri'.
    Proof.
      constructor.
      - intros a b c [[H Hn]|[[-> H]|[[-> H]|[-> H]]]]; unfold Tri'; auto.
        left. split; [now apply tri_rot|]. intros H'. apply Hn. now apply bad_rot, bad_rot.
      - intros a b c [[H Hn]|[[-> H]|[[-> H]|[-> H]]]]; unfold Tri'.
        + left. split; [now apply tri_swap|]. intros H'. apply Hn. now apply bad_swap.
        + right; left. split; [easy|]. now apply bdry_swap.
        + right; right; right. split; [easy|]. now apply bdry_swap.
        + right; right; left. split; [easy|]. now apply bdry_swap.
      - intros a b c [[H Hn]|[[-> H]|[[-> H]|[-> H]]]]; unfold V'; auto; left.
        + now apply tri_V in H.
        + now apply bdry_V in H.
        + now apply bdry_V in H.
      - intros a b c [[H Hn]|[[-> H]|[[-> H]|[-> H]]]].
        + now apply (i_nd V Tri I).
        + now apply bdry_nd.
        + rewrite <- orient_rot. now apply bdry_nd.
        + rewrite orient_rot. now apply bdry_nd.
      - intros a b c q [[H Hn]|[[-> H]|[[-> H]|[-> H]]]] Ho [Hq| ->].
        + now apply (i_del V Tri I).
        + apply notbad_le in Hn; [|easy]. nra.
        + apply bdry_pos, dB_main in H as [_ H]; [|easy]. now apply H.
        + rewrite incirc_c. lra.
        + rewrite <- orient_rot in Ho. rewrite <- incirc_rot. apply bdry_pos, dB_main in H as [_ H]; [|easy]. now apply H.
        + rewrite incirc_a. lra.
        + rewrite orient_rot in Ho. rewrite incirc_rot. apply bdry_pos, dB_main in H as [_ H]; [|easy]. now apply H.
        + rewrite incirc_b. lra.
      - intros a b c d H H' Ho Ho'.
        assert (forall x y, ~ bdry p x /\ ~ bdry y p) as Hnp by (intros x y; split; intros B; apply bdry_V in B; tauto).
        assert (forall x y z, Tri x y z -> x <> p /\ y <> p /\ z <> p) as Htp.
        { intros x y z B. apply tri_V in B. repeat split; intros ->; tauto. }
        assert (forall c d, Tri a b c /\ ~ bad a b c -> bdry a b -> 0 < o a b c -> 0 < o a b p -> c = d) as Hmix.
        { intros c0 d0 [B1 B2] B3 B4 B5. exfalso. apply B2. apply bdry_pos in B3; [|easy]. destruct B3 as (e & Be & Bo & _).
          assert (c0 = e) as -> by (destruct Be as [Be _]; now apply (i_uniq V Tri I a b)). easy. }
        destruct H as [[H Hn]|[[-> H]|[[-> H]|[-> H]]]]; destruct H' as [[H' Hn']|[[-> H']|[[E' H']|[E' H']]]]; try reflexivity.
        + now apply (i_uniq V Tri I a b).
        + now apply Hmix.
        + exfalso. apply Htp in H. tauto.
        + exfalso. apply Htp in H. tauto.
        + symmetry. now apply Hmix.
        + exfalso. subst a. now apply (Hnp b b) in H.
        + exfalso. subst b. now apply (Hnp a a) in H.
        + exfalso. apply Htp in H'. tauto.
        + exfalso. now apply (Hnp b b) in H'.
        + rewrite <- orient_rot in Ho, Ho'. apply (dB_out b); now apply bdry_pos.
        + exfalso. subst b. now apply (Hnp c c) in H.
        + exfalso. apply Htp in H'. tauto.
        + exfalso. now apply (Hnp a a) in H'.
        + exfalso. subst a. now apply (Hnp c c) in H.
        + rewrite orient_rot in Ho, Ho'. apply (dB_in a); now apply bdry_pos.
      - intros a b c H Ho.
        destruct H as [[H Hn]|[[-> H]|[[-> H]|[-> H]]]].
        + destruct (i_pair V Tri I a b c H Ho) as [Hh|(d & Hd & Hod)]; [now left|]. right.
          destruct (classic (bad a b d)) as [Hbd|Hbd].
          * assert (bdry a b) as Hbb.
            { exists d. split; [easy|]. intros e He. destruct (Rtotal_order 0 (o a b e)) as [Hoe|[Hoe|Hoe]].
              - exfalso. apply Hn. assert (c = e) as -> by (destruct He as [He _]; now apply (i_uniq V Tri I a b)). easy.
              - exfalso. destruct He as [He _]. apply (i_nd V Tri I) in He; lra.
              - destruct He as [He _]. apply (i_uniq V Tri I b a); auto using tri_swap; rewrite orient_swap; lra. }
            exists p. split; [right; left; auto|]. apply bdry_dir in Hbb as [(e & He & Hoe & _)|HB].
            -- exfalso. apply Hn. assert (c = e) as -> by (destruct He as [He _]; now apply (i_uniq V Tri I a b)). easy.
            -- apply dB_main in HB as [HB _]. rewrite orient_swap in HB. lra.
          * exists d. split; [left; auto|easy].
        + apply bdry_pos in H; [|easy]. destruct H as (e & He & Hoe & Hu). pose proof He as [Hte _].
          destruct (i_pair V Tri I a b e Hte Hoe) as [Hh|(d & Hd & Hod)]; [now left|]. right. exists d. split; [|easy]. left. split; [easy|].
          intros Hbd. apply Hu in Hbd. subst d. lra.
        + right. rewrite <- orient_rot in Ho. apply bdry_pos in H; [|easy]. apply walk_bwd in H as (d & Hd). exists d.
          pose proof (dB_main _ _ Hd) as [Hod _]. split; [right; right; left; split; [easy|]; now apply bdry_swap, dB_bdry|].
          assert (o p b d = - o d b p) as -> by (unfold orient; ring). lra.
        + right. rewrite orient_rot in Ho. apply bdry_pos in H; [|easy]. apply walk_fwd in H as (d & Hd). exists d.
          pose proof (dB_main _ _ Hd) as [Hod _]. split; [right; right; right; split; [easy|]; now apply bdry_swap, dB_bdry|].
          assert (o a p d = - o a d p) as -> by (unfold orient; ring). lra.
      - assert (forall a b c x y z, Tri' a b c -> a = p -> Tri x y z -> P x <> P p) as Hnew.
        { intros a b c x y z H -> Hx E. apply Tri'_bad in H as (x' & y' & z' & Hb & Ho); [|auto]. pose proof (bad_ic _ _ _ Hb Ho) as B1.
          destruct Hb as [Hb _]. pose proof (i_del V Tri I x' y' z' x Hb Ho) as B2. rewrite E in B2.
          specialize (B2 ltac:(now apply tri_V in Hx)). lra. }
        intros a b c a' b' c' H H' E. pose proof (Tri'_vert _ _ _ H) as Ha. pose proof (Tri'_vert _ _ _ H') as Ha'.
        destruct Ha as [->|(y & z & Ha)]; destruct Ha' as [->|(y' & z' & Ha')]; try reflexivity.
        + exfalso. now apply (Hnew p b c a' y' z').
        + exfalso. now apply (Hnew p b' c' a y z).
        + eapply (i_inj V Tri I); eauto.
      - intros a b Hh. destruct (i_cov V Tri I a b Hh) as (c & Hc & Ho). destruct (classic (bad a b c)) as [Hb|Hb].
        + exists p. split; [|now apply Hpin]. right; left. split; [easy|]. exists c. split; [easy|]. intros d Hd.
          destruct Hd as [Hd _]. apply (i_uniq V Tri I a b); auto. pose proof (i_nd V Tri I a b d Hd).
          pose proof (Hhull a b d Hh ltac:(now apply tri_V in Hd)). lra.
        + exists c. split; [left; auto|easy].
    Qed.
  End OneStep.
End Step.
