(** Listing the configurations of a graph given by a list of vertices and a list of edges. *)
From Coq Require Import List Arith ZArith Bool Lia Setoid Morphisms Ring Permutation Sorted.
From Verif Require Import PidModel MatModel MatSpec GraphModel GraphSpec CubeModel CubeSpec CubeProofs GalSpec GalProofs GalProofs2.
Import ListNotations.
Open Scope Z_scope.

Lemma zsuml_app l l' : zsuml (l ++ l') = zsuml l + zsuml l'.
Proof. induction l as [|x l IH]; [reflexivity|]. cbn [app zsuml fold_right]. fold (zsuml (l ++ l')) (zsuml l). rewrite IH. ring. Qed.
Lemma zsuml_perm l l' : Permutation l l' -> zsuml l = zsuml l'.
Proof. unfold zsuml. induction 1; cbn [fold_right] in *; [reflexivity|lia|lia|lia]. Qed.
(** Signed number of the lists of each length. *)
Definition sgn (c : list factor) : Z := sign (dimension c).
Definition ser (l : list (list factor)) : series := fun n => zsuml (map (fun c => if (length c =? n)%nat then sgn c else 0) l).
Lemma ser_app l l' : ser (l ++ l') == sadd (ser l) (ser l').
Proof. intros n. unfold ser, sadd. now rewrite map_app, zsuml_app. Qed.
Lemma sign_S k : sign (S k) = - sign k.
Proof. unfold sign. rewrite Nat.even_succ, <- Nat.negb_even. now destruct (Nat.even k). Qed.
Lemma ser_vertex x l : ser (map (cons (FVertex x)) l) == smul st (ser l).
Proof.
  intros n. rewrite st_mul. unfold ser. rewrite map_map. destruct n as [|n]; [|reflexivity]. induction l as [|c l IH]; [reflexivity|]. cbn [map zsuml fold_right length Nat.eqb]. exact IH.
Qed.
Lemma ser_edge x y l : ser (map (cons (FEdge x y)) l) == sopp (smul st (ser l)).
Proof.
  intros n. unfold sopp. rewrite st_mul. unfold ser. rewrite map_map. induction l as [|c l IH]; [destruct n; reflexivity|]. cbn [map zsuml fold_right length].
  fold (zsuml (map (fun c => if (S (length c) =? n)%nat then sgn (FEdge x y :: c) else 0) l)). cbn [length] in IH. rewrite IH. unfold sgn. change (dimension (FEdge x y :: c)) with (S (dimension c)). rewrite sign_S.
  destruct n as [|n]; cbn [Nat.eqb]; [reflexivity|]. fold (zsuml (map (fun c => if (length c =? n)%nat then sign (dimension c) else 0) l)). destruct (length c =? n)%nat; lia.
Qed.

Section G.
  Context {A : Type} (dec : forall x y : A, {x = y} + {x <> y}).
  Variable V : list A.
  Hypothesis NDV : NoDup V.
  Variable pos : A -> nat.
  Hypothesis pos_inj : forall u v, In u V -> In v V -> pos u = pos v -> u = v.
  Definition fv (v : A) : factor := FVertex (pos v).
  Definition fe (a b : A) : factor := FEdge (Nat.min (pos a) (pos b)) (Nat.max (pos a) (pos b)).
  Notation del := (del dec).
  Fixpoint gV (l : list A) : list (list factor) := match l with [] => [[]] | v :: l => gV l ++ map (cons (fv v)) (gV l) end.
  Fixpoint gE (E : list (A * A)) (av : A -> bool) : list (list factor) :=
    match E with
    | [] => gV (filter av V)
    | (a, b) :: E => gE E av ++ (if av a && av b then map (cons (fe a b)) (gE E (del a (del b av))) else [])
    end.
  Lemma ser_gV l : ser (gV l) == sprod (fun _ => sadd sone st) l.
  Proof.
    induction l as [|v l IH]; cbn [gV sprod fold_right]; [intros [|n]; reflexivity|]. fold (sprod (fun _ : A => sadd sone st) l). rewrite ser_app. unfold fv. rewrite ser_vertex, IH. ring.
  Qed.
  Lemma sprod_filter av (l : list A) : sprod (fun _ => sadd sone st) (filter av l) == sprod (fun v => if av v then sadd sone st else sone) l.
  Proof. induction l as [|v l IH]; [reflexivity|]. cbn [filter sprod fold_right]. fold (sprod (fun v => if av v then sadd sone st else sone) l). destruct (av v); [cbn [sprod fold_right]; fold (sprod (fun _ : A => sadd sone st) (filter av l)); now rewrite IH|rewrite IH; ring]. Qed.
  Lemma ser_gE E : forall av, ser (gE E av) == W dec V E av.
  Proof.
    induction E as [|[a b] E IH]; intros av; cbn [gE W]; [rewrite ser_gV; apply sprod_filter|]. rewrite ser_app. destruct (av a && av b).
    - unfold fe. rewrite ser_edge, !IH. ring.
    - change (ser []) with szero. rewrite IH. ring.
  Qed.

  (** A cell with available vertices. *)
  Definition cellOK (E : list (A * A)) (av : A -> bool) (f : factor) : Prop :=
    (exists v, In v V /\ av v = true /\ f = fv v) \/ (exists a b, In (a, b) E /\ av a = true /\ av b = true /\ f = fe a b).
  Definition inV (E : list (A * A)) : Prop := forall a b, In (a, b) E -> In a V /\ In b V /\ a <> b.
  Definition simpleE (E : list (A * A)) : Prop := ForallOrdPairs (fun e e' => fe (fst e) (snd e) <> fe (fst e') (snd e')) E.
  Lemma fe_verts a b w : In w (verts (fe a b)) <-> w = pos a \/ w = pos b.
  Proof. cbn. lia. Qed.
  Lemma fv_verts v w : In w (verts (fv v)) <-> w = pos v.
  Proof. cbn. lia. Qed.
  Lemma inV_tl e E : inV (e :: E) -> inV E.
  Proof. intros H a b Hab. apply H. now right. Qed.
  (** Cells that avoid [a] and [b] are those with available vertices after deleting them. *)
  Lemma cell_avoid E av a b f : inV E -> In a V -> In b V -> (cellOK E (del a (del b av)) f <-> cellOK E av f /\ disjoint (fe a b) f).
  Proof.
    intros HE Ha Hb. split.
    - intros [(v & Hv & Av & ->)|(x & y & Hxy & Ax & Ay & ->)].
      + unfold GalProofs2.del in Av. destruct (dec v a); [discriminate|]. destruct (dec v b); [discriminate|]. split; [left; eauto|]. intros w Hw K. apply fe_verts in Hw. apply fv_verts in K. subst w. destruct Hw as [K|K]; apply pos_inj in K; auto.
      + destruct (HE _ _ Hxy) as (Hx & Hy & _). unfold GalProofs2.del in Ax, Ay. destruct (dec x a); [discriminate|]. destruct (dec x b); [discriminate|]. destruct (dec y a); [discriminate|]. destruct (dec y b); [discriminate|].
        split; [right; exists x, y; auto|]. intros w Hw K. apply fe_verts in Hw, K. destruct Hw as [-> | ->], K as [K|K]; apply pos_inj in K; auto.
    - intros [[(v & Hv & Av & ->)|(x & y & Hxy & Ax & Ay & ->)] D].
      + left. exists v. split; [exact Hv|]. split; [|reflexivity]. unfold GalProofs2.del. destruct (dec v a) as [->|]; [exfalso; apply (D (pos a)); [apply fe_verts; auto|now apply fv_verts]|]. destruct (dec v b) as [->|]; [exfalso; apply (D (pos b)); [apply fe_verts; auto|now apply fv_verts]|exact Av].
      + right. exists x, y. split; [exact Hxy|]. unfold GalProofs2.del.
        destruct (dec x a) as [->|]; [exfalso; apply (D (pos a)); apply fe_verts; auto|]. destruct (dec x b) as [->|]; [exfalso; apply (D (pos b)); apply fe_verts; auto|].
        destruct (dec y a) as [->|]; [exfalso; apply (D (pos a)); apply fe_verts; auto|]. destruct (dec y b) as [->|]; [exfalso; apply (D (pos b)); apply fe_verts; auto|]. auto.
  Qed.
  Lemma cell_cons e E av f : cellOK E av f -> cellOK (e :: E) av f.
  Proof. intros [H|(x & y & H & R)]; [now left|]. right. exists x, y. split; [now right|exact R]. Qed.
  (** Vertices only. *)
  Lemma gV_sound l c : NoDup l -> incl l V -> In c (gV l) -> Forall (fun f => exists v, In v l /\ f = fv v) c /\ pd c.
  Proof.
    revert c. induction l as [|v l IH]; intros c ND HV; cbn [gV]; [intros [<-|[]]; split; constructor|]. inversion ND as [|? ? Nv ND']; subst. intros H. apply in_app_iff in H as [H|H].
    - destruct (IH c ND' (fun x Hx => HV x (or_intror Hx)) H) as [A1 A2]. split; [|exact A2]. eapply Forall_impl; [|exact A1]. intros f (x & Hx & ->). exists x. split; [now right|reflexivity].
    - apply in_map_iff in H as (c' & <- & H). destruct (IH c' ND' (fun x Hx => HV x (or_intror Hx)) H) as [A1 A2]. split.
      + constructor; [exists v; split; [now left|reflexivity]|]. eapply Forall_impl; [|exact A1]. intros f (x & Hx & ->). exists x. split; [now right|reflexivity].
      + constructor; [|exact A2]. eapply Forall_impl; [|exact A1]. intros f (x & Hx & ->) w Hw K. apply fv_verts in Hw, K. subst w. apply pos_inj in K; [subst; contradiction|apply HV; now left|apply HV; now right].
  Qed.
  Lemma gV_complete l : NoDup l -> incl l V -> forall c, pd c -> Forall (fun f => exists v, In v l /\ f = fv v) c -> exists c', In c' (gV l) /\ Permutation c c'.
  Proof.
    induction l as [|v l IH]; intros ND HV c PD H; cbn [gV].
    - destruct c as [|f c]; [exists []; split; [now left|constructor]|]. inversion H as [|? ? (v & [] & _) _].
    - inversion ND as [|? ? Nv ND']; subst. destruct (in_dec f_dec (fv v) c) as [Hv|Hv].
      + apply in_split in Hv. destruct Hv as (c1 & c2 & ->). assert (P : Permutation (c1 ++ fv v :: c2) (fv v :: c1 ++ c2)) by (symmetry; apply Permutation_middle).
        apply (pd_perm _ _ P) in PD. apply (Permutation_Forall P) in H. inversion PD as [|? ? D PD']; subst. inversion H as [|? ? _ H']; subst.
        destruct (IH ND' (fun x Hx => HV x (or_intror Hx)) (c1 ++ c2) PD') as (c' & I1 & P1).
        { rewrite Forall_forall in *. intros f Hf. destruct (H' f Hf) as (x & [<-|Hx] & ->); [|exists x; auto]. exfalso. apply (D _ Hf (pos v)); now apply fv_verts. }
        exists (fv v :: c'). split; [apply in_or_app; right; now apply in_map|]. rewrite P. now constructor.
      + destruct (IH ND' (fun x Hx => HV x (or_intror Hx)) c PD) as (c' & I1 & P1); [|exists c'; split; [apply in_or_app; now left|exact P1]].
        rewrite Forall_forall in *. intros f Hf. destruct (H f Hf) as (x & [<-|Hx] & ->); [contradiction|exists x; auto].
  Qed.
  Lemma FOP_app {B} (R : B -> B -> Prop) l l' : ForallOrdPairs R l -> ForallOrdPairs R l' -> (forall x y, In x l -> In y l' -> R x y) -> ForallOrdPairs R (l ++ l').
  Proof.
    intros H1 H2 H. induction H1 as [|x l F H1 IH]; [exact H2|]. cbn. constructor; [|apply IH; intros; apply H; [now right|assumption]]. apply Forall_app. split; [exact F|]. apply Forall_forall. intros y Hy. apply H; [now left|exact Hy].
  Qed.
  Definition differ (c d : list factor) : Prop := ~ Permutation c d.
  Lemma FOP_cons f l : ForallOrdPairs differ l -> ForallOrdPairs differ (map (cons f) l).
  Proof.
    induction 1 as [|x l F H IH]; cbn; constructor; [|exact IH]. apply Forall_forall. intros y Hy. apply in_map_iff in Hy as (z & <- & Hz). rewrite Forall_forall in F. intros K. apply (F z Hz). now apply Permutation_cons_inv in K.
  Qed.
  Lemma gV_differ l : NoDup l -> incl l V -> ForallOrdPairs differ (gV l).
  Proof.
    induction l as [|v l IH]; intros ND HV; cbn [gV]; [constructor; constructor|]. inversion ND as [|? ? Nv ND']; subst. assert (HV' : incl l V) by (intros x Hx; apply HV; now right).
    apply FOP_app; [now apply IH|now apply FOP_cons, IH|]. intros c d Hc Hd K. apply in_map_iff in Hd as (d' & <- & _). destruct (gV_sound l c ND' HV' Hc) as [F _].
    apply Permutation_sym in K. assert (In (fv v) c) as Hv by (eapply Permutation_in; [exact K|now left]). rewrite Forall_forall in F. destruct (F _ Hv) as (x & Hx & E). injection E as E. apply pos_inj in E; [subst; contradiction|apply HV; now left|now apply HV'].
  Qed.
  Lemma filter_V av : NoDup (filter av V) /\ incl (filter av V) V.
  Proof. split; [now apply NoDup_filter|]. intros x Hx. now apply filter_In in Hx. Qed.
  Lemma gE_sound E : inV E -> forall av c, In c (gE E av) -> Forall (cellOK E av) c /\ pd c.
  Proof.
    induction E as [|[a b] E IH]; intros HE av c; cbn [gE].
    - destruct (filter_V av) as [N1 N2]. intros H. destruct (gV_sound _ c N1 N2 H) as [F P]. split; [|exact P]. eapply Forall_impl; [|exact F]. intros f (v & Hv & ->). apply filter_In in Hv. left. exists v. tauto.
    - intros H. apply in_app_iff in H as [H|H].
      + destruct (IH (inV_tl _ _ HE) av c H) as [F P]. split; [|exact P]. eapply Forall_impl; [|exact F]. intros f. apply cell_cons.
      + destruct (av a && av b) eqn:Ab; [|destruct H]. apply andb_true_iff in Ab. destruct Ab as [Aa Ab]. apply in_map_iff in H as (d & <- & H). destruct (IH (inV_tl _ _ HE) _ d H) as [F P]. destruct (HE a b (or_introl eq_refl)) as (Ha & Hb & _).
        assert (F' : Forall (fun f => cellOK E av f /\ disjoint (fe a b) f) d) by (eapply Forall_impl; [|exact F]; intros f Hf; apply (cell_avoid E av a b f (inV_tl _ _ HE) Ha Hb); exact Hf).
        split; [constructor; [right; exists a, b; split; [now left|auto]|]|constructor; [|exact P]]; (eapply Forall_impl; [|exact F']); intros f [H1 H2]; [now apply cell_cons|exact H2].
  Qed.
  Lemma gE_complete E : inV E -> forall av c, pd c -> Forall (cellOK E av) c -> exists c', In c' (gE E av) /\ Permutation c c'.
  Proof.
    induction E as [|[a b] E IH]; intros HE av c PD F; cbn [gE].
    - destruct (filter_V av) as [N1 N2]. apply gV_complete; auto. eapply Forall_impl; [|exact F]. intros f [(v & Hv & Av & ->)|(x & y & [] & _)]. exists v. split; [now apply filter_In|reflexivity].
    - destruct (HE a b (or_introl eq_refl)) as (Ha & Hb & _). destruct (in_dec f_dec (fe a b) c) as [Hc|Hc].
      + apply in_split in Hc. destruct Hc as (c1 & c2 & ->). assert (P : Permutation (c1 ++ fe a b :: c2) (fe a b :: c1 ++ c2)) by (symmetry; apply Permutation_middle).
        apply (pd_perm _ _ P) in PD. apply (Permutation_Forall P) in F. inversion PD as [|? ? D PD']; subst. inversion F as [|? ? F0 F']; subst.
        destruct (IH (inV_tl _ _ HE) (del a (del b av)) (c1 ++ c2) PD') as (c' & I1 & P1).
        { rewrite Forall_forall in *. intros f Hf. apply (cell_avoid E av a b f (inV_tl _ _ HE) Ha Hb). split; [|now apply D]. destruct (F' f Hf) as [K|(x & y & [[= <- <-]|K] & R)]; [now left| |right; exists x, y; auto].
          exfalso. destruct R as (_ & _ & ->). apply (D _ Hf (pos a)); apply fe_verts; auto. }
        assert (AB : av a && av b = true).
        { clear -F0 pos_inj HE. pose proof (HE a b (or_introl eq_refl)) as (Ha & Hb & _). destruct F0 as [(v & _ & _ & K)|(x & y & Hxy & Ax & Ay & K)]; [discriminate|]. destruct (HE _ _ Hxy) as (Hx & Hy & _). unfold fe in K. injection K as K1 K2.
          assert (K : (pos a = pos x /\ pos b = pos y) \/ (pos a = pos y /\ pos b = pos x)) by lia. destruct K as [[Q1 Q2]|[Q1 Q2]]; apply pos_inj in Q1; auto; apply pos_inj in Q2; auto; subst; rewrite Ax, Ay; reflexivity. }
        exists (fe a b :: c'). rewrite AB. split; [apply in_or_app; right; now apply in_map|]. rewrite P. now constructor.
      + destruct (IH (inV_tl _ _ HE) av c PD) as (c' & I1 & P1); [|exists c'; split; [apply in_or_app; now left|exact P1]].
        rewrite Forall_forall in *. intros f Hf. destruct (F f Hf) as [K|(x & y & [[= <- <-]|K] & R)]; [now left| |right; exists x, y; auto]. exfalso. destruct R as (_ & _ & ->). contradiction.
  Qed.
  Lemma gE_differ E : inV E -> simpleE E -> forall av, ForallOrdPairs differ (gE E av).
  Proof.
    intros HE SE. induction SE as [|[a b] E F SE IH]; intros av; cbn [gE]; [destruct (filter_V av) as [N1 N2]; now apply gV_differ|]. specialize (IH (inV_tl _ _ HE)).
    destruct (av a && av b); [|rewrite app_nil_r; apply IH]. apply FOP_app; [apply IH|apply FOP_cons, IH|]. intros c d Hc Hd K. apply in_map_iff in Hd as (d' & <- & _). destruct (gE_sound E (inV_tl _ _ HE) av c Hc) as [FC _].
    apply Permutation_sym in K. assert (In (fe a b) c) as Hv by (eapply Permutation_in; [exact K|now left]). rewrite Forall_forall in FC. destruct (FC _ Hv) as [(v & _ & _ & Q)|(x & y & Hxy & _ & _ & Q)]; [discriminate|].
    rewrite Forall_forall in F. apply (F (x, y) Hxy). exact Q.
  Qed.
End G.
