(** [UdnMorseCplx]: what is built, the shape of the listed cells. *)
From Coq Require Import List Arith ZArith Bool Lia ZifyBool Sorted Permutation.
From Verif Require Import PidModel PermProofs SnfModel SnfProofs2 MatModel MatProofs GraphModel GraphSpec GraphProofs GraphProofs2 GraphProofs7 GraphProofs8 GraphProps UtilModel UtilSpec UtilProofs UtilProofs2 CubeModel CubeSpec CubeProofs CubeProofs2 CubeProofs3 MorseModel MorseSpec MorseProofs MorseCplxModel MorseCplxProofs.
Import ListNotations.
Open Scope nat_scope.

Section Fold.
Variable g : rawg.
Variable labels : list factor.
Variable upper : option nat.
Notation enumS := (enumS g labels upper).
Notation stepS := (stepS g labels upper).
Lemma fold_snd r p : forall fs ps qs F, snd (fold_left (stepS r p) fs (ps, F)) = snd (fold_left (stepS r p) fs (qs, F)).
Proof. induction fs as [|f fs IH]; intros ps qs F; [reflexivity|]. cbn [fold_left]. unfold MorseCplxProofs.stepS at 2 4. cbn [fst snd]. apply IH. Qed.
Lemma fold_fst r p : forall fs ps F, fst (fold_left (stepS r p) fs (ps, F)) = ps ++ fst (fold_left (stepS r p) fs ([], F)).
Proof.
  induction fs as [|f fs IH]; intros ps F; cbn [fold_left]; [now rewrite app_nil_r|]. unfold MorseCplxProofs.stepS at 2 4. cbn [fst snd app]. rewrite IH. rewrite (IH (fst (enumS r (f :: p) (addS F (addedS g f))))). now rewrite app_assoc.
Qed.
Lemma fold_in r p : forall fs q ps F, In q (fst (fold_left (stepS r p) fs (ps, F))) <->
  In q ps \/ exists fs1 f fs2, fs = fs1 ++ f :: fs2 /\ In q (fst (enumS r (f :: p) (addS (snd (fold_left (stepS r p) fs1 ([], F))) (addedS g f)))).
Proof.
  induction fs as [|f fs IH]; intros q ps F; cbn [fold_left].
  - cbn [fst]. split; [auto|]. intros [H|(fs1 & f & fs2 & E & _)]; [exact H|]. now apply app_cons_not_nil in E.
  - unfold MorseCplxProofs.stepS at 2. cbn [fst snd]. rewrite IH, in_app_iff. split.
    + intros [[H|H]|(fs1 & f' & fs2 & -> & H)]; [now left|right; exists [], f, fs; cbn; auto|right]. exists (f :: fs1), f', fs2. split; [reflexivity|]. cbn [fold_left]. unfold MorseCplxProofs.stepS at 2. cbn [fst snd].
      rewrite (fold_snd _ _ _ _ []). exact H.
    + intros [H|(fs1 & f' & fs2 & E & H)]; [auto|]. destruct fs1 as [|f1 fs1]; cbn [app] in E; injection E as <- E.
      * cbn in H. auto.
      * right. exists fs1, f', fs2. split; [exact E|]. cbn [fold_left] in H. unfold MorseCplxProofs.stepS in H at 2. cbn [fst snd] in H. rewrite (fold_snd _ _ _ _ []) in H. exact H.
Qed.
End Fold.

Section Shape.
Variable g : rawg.
Hypothesis HA : AR g.
Variable labels : list factor.
Hypothesis HND : NoDup labels.
Hypothesis Hlab : forall f, In f labels <-> closed_cell g f.
Variable upper : option nat.
Notation N := (g_n g).
Notation enumS := (enumS g labels upper).
Notation stepS := (stepS g labels upper).
Notation nextS := (nextS g labels upper).
Notation good := (good g).
Notation okS := (okS labels).

Lemma fold_mono' r p F fs x : (forall f, In f fs -> F f = true) -> snd (fold_left (stepS r p) fs ([], F)) x = true -> F x = true.
Proof. intros H. apply (fold_mono g labels upper r p (enumS_mono g labels upper r)); auto. Qed.
(** An invariant of the sets along a branch. *)
Lemma enum_inv (J : list factor -> (factor -> bool) -> Prop) :
  (forall r p F F' f, J p F -> (forall x, F' x = true -> F x = true) -> In f (nextS r p F) -> J (f :: p) (addS F' (addedS g f))) ->
  forall r p F q, J p F -> In q (fst (enumS r p F)) -> exists l f p' F', q = f :: p' /\ p' = l ++ p /\ length l = r /\ J p' F' /\ In f (nextS 0 p' F').
Proof.
  intros HJ. induction r as [|r IH]; intros p F q HP Hq.
  - cbn in Hq. apply in_map_iff in Hq as (f & <- & Hf). exists [], f, p, F. repeat split; auto.
  - rewrite enumS_S in Hq. apply fold_in in Hq as [[]|(fs1 & f & fs2 & E & Hq)]. assert (Hf : In f (nextS (S r) p F)) by (rewrite E; apply in_or_app; right; now left).
    apply IH in Hq.
    + destruct Hq as (l & f' & p' & F' & -> & -> & L & J1 & H1). exists (l ++ [f]), f', (l ++ f :: p), F'. split; [reflexivity|]. split; [now rewrite <- app_assoc|]. split; [rewrite app_length; cbn; lia|]. split; assumption.
    + apply (HJ (S r) p F); auto. intros x. apply fold_mono'. intros f' Hf'. apply (next_in g labels upper (S r) p F). rewrite E. apply in_or_app. now left.
Qed.
Lemma enum_good r p F q : good p -> okS F -> In q (fst (enumS r p F)) -> good q /\ exists l, length l = S r /\ q = l ++ p.
Proof.
  intros HG HO Hq. destruct (enum_inv (fun p F => good p /\ okS F)) with (r := r) (p := p) (F := F) (q := q) as (l & f & p' & F' & -> & -> & L & (J1 & J2) & Hf); auto.
  - intros r' p' F0 F' f (A & B) HF Hf. assert (okS F') by (intros x y K; apply B; now apply HF). split; [now apply (next_good g labels Hlab upper r' p' F0)|]. apply (okS_add g labels Hlab); auto. apply (next_in g labels upper _ _ _ _ Hf).
  - split; [now apply (next_good g labels Hlab upper 0 _ F')|]. exists (f :: l). cbn. auto.
Qed.
Lemma next_NoDup r p F : NoDup (nextS r p F).
Proof. unfold MorseCplxProofs.nextS. destruct p; [now apply NoDup_filter|]. now apply NoDup_filter, NoDup_filter, NoDup_filter. Qed.
Lemma enum_NoDup : forall r p F, good p -> okS F -> NoDup (fst (enumS r p F)).
Proof.
  induction r as [|r IH]; intros p F HG HO.
  - cbn. apply FinFun.Injective_map_NoDup; [intros a b K; congruence|apply next_NoDup].
  - rewrite enumS_S. assert (G : forall fs F1, NoDup fs -> (forall f, In f fs -> good (f :: p) /\ In f labels) -> okS F1 -> NoDup (fst (fold_left (stepS r p) fs ([], F1)))).
    { induction fs as [|f fs IHf]; intros F1 ND HF HO1; [constructor|]. inversion ND as [|? ? Nf ND']; subst. cbn [fold_left]. unfold MorseCplxProofs.stepS at 2. cbn [fst snd app]. rewrite fold_fst.
      destruct (HF f (or_introl eq_refl)) as (Gf & Lf). pose proof (okS_add g labels Hlab F1 f HO1 Lf) as HO2. set (res := enumS r (f :: p) (addS F1 (addedS g f))) in *.
      assert (HO3 : okS (remS (addS (snd res) [f]) (addedS g f))). { apply okS_rem; [now apply enumS_ok|]. intros x y E _. apply f_eqb_eq in E. apply Gf. now left. }
      apply PermProofs.NoDup_app_intro; [now apply IH|apply IHf; auto; intros f' Hf'; apply HF; now right|].
      intros q Hq Hq'. destruct (enum_good r (f :: p) _ q Gf HO2 Hq) as (_ & l & L & ->). apply fold_in in Hq' as [[]|(fs1 & f' & fs2 & E & Hq')].
      assert (Hf' : In f' fs) by (rewrite E; apply in_or_app; right; now left). destruct (HF f' (or_intror Hf')) as (Gf' & Lf').
      assert (HO4 : okS (addS (snd (fold_left (stepS r p) fs1 ([], remS (addS (snd res) [f]) (addedS g f)))) (addedS g f'))).
      { apply (okS_add g labels Hlab); auto. intros x y K Hl. apply (fold_mono g labels upper r p (enumS_mono g labels upper r) _ _ _ (fun x => remS (addS (snd res) [f]) (addedS g f) x || existsb (f_eqb x) fs1)) in K.
        - apply orb_true_iff in K as [K|K]; [now apply HO3|]. apply existsb_in in K. assert (In (FEdge x y) fs) by (rewrite E; apply in_or_app; now left). destruct (HF _ (or_intror H)) as ((_ & _ & _ & GE) & _). apply GE. now left.
        - intros h Hh. apply orb_true_iff. right. now apply existsb_in.
        - intros h Hh. now rewrite Hh. }
      destruct (enum_good r (f' :: p) _ _ Gf' HO4 Hq') as (_ & l' & L' & El). assert (K : l = l' /\ f :: p = f' :: p) by (apply app_inj_len; [congruence|exact El]). destruct K as (_ & K). injection K as <-. contradiction. }
    apply G; [apply next_NoDup| |exact HO]. intros f Hf. split; [now apply (next_good g labels Hlab upper (S r) p F)|apply (next_in g labels upper _ _ _ _ Hf)].
Qed.
End Shape.
