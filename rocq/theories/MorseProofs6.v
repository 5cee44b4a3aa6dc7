(** The pairing of redundant and collapsible cells. *)
From Coq Require Import List Arith ZArith Bool Lia Sorted Permutation.
From Verif Require Import PidModel SnfModel MatModel LinModel GraphModel GraphSpec GraphProofs GraphProofs7
  CubeModel CubeSpec CubeProofs MorseModel MorseSpec MorseProofs MorseProofs2.
Import ListNotations.
Open Scope nat_scope.

Lemma occupied_perm c c' v : Permutation c c' -> occupied c v -> occupied c' v.
Proof. intros P (f & Hf & Hv). exists f. split; [eapply Permutation_in; eauto|exact Hv]. Qed.
Lemma mobile_perm g c c' f : Permutation c c' -> mobile g c f -> mobile g c' f.
Proof.
  intros P. destruct f as [x y|v]; cbn.
  - intros (T & H). split; [exact T|]. intros v Hv. apply H. eapply Permutation_in; [apply Permutation_sym, P|exact Hv].
  - intros H [K|(w & T & O)]; apply H; [now left|right]. exists w. split; [exact T|]. eapply occupied_perm; [apply Permutation_sym, P|exact O].
Qed.
(** In a listed cell the first mobile factor is the lowest. *)
Lemma listed_low c : listed c -> forall i j f f', nth_error c i = Some f -> nth_error c j = Some f' -> i < j -> low f < low f'.
Proof.
  induction 1 as [|x t HL IH HF]; intros i j f f' Hi Hj L; [destruct i; discriminate|]. rewrite Forall_forall in HF. destruct j as [|j]; [lia|]. cbn in Hj. destruct i as [|i].
  - cbn in Hi. injection Hi as <-. apply HF. eapply nth_error_In; eauto.
  - cbn in Hi. eapply IH; eauto. lia.
Qed.
Lemma first_mobile_low g c i f : listed c -> first_mobile g c i f <-> nth_error c i = Some f /\ mobile g c f /\ forall f', In f' c -> low f' < low f -> ~ mobile g c f'.
Proof.
  intros HL. split; intros (A & B & C); (split; [exact A|split; [exact B|]]).
  - intros f' Hf' L. apply In_nth_error in Hf' as (j & Hj). destruct (Nat.lt_trichotomy j i) as [K|[K|K]]; [now apply (C j)|subst j; rewrite A in Hj; injection Hj as <-; lia|].
    pose proof (listed_low c HL _ _ _ _ A Hj K). lia.
  - intros j f' Hj Hf'. apply C; [eapply nth_error_In; eauto|]. now apply (listed_low c HL j i).
Qed.
Lemma listed_at c f : listed c -> In f c -> exists i, nth_error c i = Some f.
Proof. intros _ H. now apply In_nth_error in H. Qed.

Section G.
Variable g : rawg.
Hypothesis HA : AR g.

(** Replacing one factor in a cell [a ++ f :: b]. *)
Lemma swap_in (a b : list factor) f f' h : In h (a ++ f' :: b) -> h = f' \/ (In h (a ++ f :: b) /\ In h (a ++ b)).
Proof. rewrite !in_app_iff. cbn. intros [H|[H|H]]; [tauto|left; now symmetry|tauto]. Qed.

Lemma pair_up_mobile a b u w : child g w u -> let c := a ++ FVertex u :: b in let c' := a ++ FEdge w u :: b in
  mobile g c (FVertex u) -> (forall f, In f c -> low f < u -> ~ mobile g c f) -> pd c -> free c w u ->
  mobile g c' (FEdge w u) /\ (forall f, In f c' -> low f < w -> ~ mobile g c' f) /\ pd c'.
Proof.
  intros C c c' M Lo PD F. destruct (child_lt g HA w u C) as (Lw & Lu & Ew).
  assert (Ot : forall f, In f (a ++ b) -> (forall v, In v (verts f) -> v < w) \/ (forall v, In v (verts f) -> u < v)).
  { intros f Hf. apply F; [unfold c; rewrite in_app_iff in *; cbn; tauto| |].
    - intros ->. unfold c in PD. apply (pd_perm _ _ (Permutation_sym (Permutation_middle a b (FVertex u)))) in PD. apply pd_cons in PD as (PD & _). rewrite Forall_forall in PD. exact (disjoint_neq _ _ (PD _ Hf) eq_refl).
    - intros ->. unfold c in PD. apply (pd_perm _ _ (Permutation_sym (Permutation_middle a b (FVertex u)))) in PD. apply pd_cons in PD as (PD & _). rewrite Forall_forall in PD. apply (PD _ Hf u); cbn; auto. }
  split; [|split].
  - split; [now apply te_child|]. intros v Hv. unfold c' in Hv. apply in_app_iff in Hv as [Hv|[Hv|Hv]]; [|discriminate Hv|];
      (destruct (Ot (FVertex v) ltac:(rewrite in_app_iff; auto)) as [K|K]; specialize (K v (or_introl eq_refl)); lia).
  - intros f Hf L Mf. apply (swap_in a b (FVertex u)) in Hf as [->|(Hf & Hab)]; [cbn in L; lia|]. apply (Lo f Hf); [lia|]. destruct f as [x y|v].
    + destruct Mf as (T & H). split; [exact T|]. intros v Hv Hr. destruct (Nat.eq_dec v u) as [->|N].
      * (* u itself between x and y: the edge spans the interval *)
        cbn in L. destruct (Ot _ Hab) as [K|K]; [specialize (K y); cbn in K; lia|specialize (K x); cbn in K; lia].
      * apply (H v); [|exact Hr]. unfold c, c' in *. rewrite in_app_iff in *. cbn in *. destruct Hv as [Hv|[Hv|Hv]]; [tauto|congruence|tauto].
    + intros B. apply Mf. destruct B as [->|(p & T & (f & Hf' & Hp))]; [now left|right]. exists p. split; [exact T|].
      apply (swap_in a b (FEdge w u)) in Hf' as [->|(Hf' & _)]; [exists (FEdge w u); split; [unfold c'; rewrite in_app_iff; cbn; tauto|destruct Hp as [<-|[]]; cbn; auto]|now exists f].
  - unfold c', c in *. apply (pd_perm _ _ (Permutation_middle a b (FEdge w u))). apply (pd_perm _ _ (Permutation_sym (Permutation_middle a b (FVertex u)))) in PD. apply pd_cons in PD as (PD & PD').
    apply pd_cons. split; [|exact PD']. apply Forall_forall. intros f Hf v Hv Hv'. destruct (Ot f Hf) as [K|K]; specialize (K v Hv'); destruct Hv as [<-|[<-|[]]]; lia.
Qed.
Lemma pair_down_mobile a b u w : let c := a ++ FEdge w u :: b in let c' := a ++ FVertex u :: b in
  mobile g c (FEdge w u) -> (forall f, In f c -> low f < w -> ~ mobile g c f) -> pd c -> free c w u ->
  mobile g c' (FVertex u) /\ (forall f, In f c' -> low f < u -> ~ mobile g c' f) /\ pd c'.
Proof.
  intros c c' M Lo PD F. assert (C : child g w u) by (apply (te_child g HA), M). destruct (child_lt g HA w u C) as (Lw & Lu & Ew).
  assert (PD2 := PD). unfold c in PD2. apply (pd_perm _ _ (Permutation_sym (Permutation_middle a b (FEdge w u)))) in PD2. apply pd_cons in PD2 as (PDx & PDab). rewrite Forall_forall in PDx.
  assert (Ot : forall f, In f (a ++ b) -> (forall v, In v (verts f) -> v < w) \/ (forall v, In v (verts f) -> u < v)).
  { intros f Hf. apply F; [unfold c; rewrite in_app_iff in *; cbn; tauto| |].
    - intros ->. apply (PDx _ Hf u); cbn; auto.
    - intros ->. exact (disjoint_neq _ _ (PDx _ Hf) eq_refl). }
  split; [|split].
  - cbn. intros [->|(p & T & (f & Hf & Hp))]; [lia|]. apply (te_child g HA) in T. rewrite <- (child_unique g _ _ _ C T) in *. apply (swap_in a b (FEdge w u)) in Hf as [->|(_ & Hf)]; [destruct Hp as [Hp|[]]; lia|].
    destruct (Ot f Hf) as [K|K]; specialize (K w Hp); lia.
  - intros f Hf L Mf. apply (swap_in a b (FEdge w u)) in Hf as [->|(Hf & Hab)]; [cbn in L; lia|].
    assert (low f < w) as Lf. { destruct (Ot f Hab) as [K|K]; specialize (K (low f)); destruct f; cbn in *; lia. }
    apply (Lo f Hf Lf). destruct f as [x y|v].
    + destruct Mf as (T & H). split; [exact T|]. intros v Hv Hr. apply (H v); [|exact Hr]. unfold c, c' in *. rewrite in_app_iff in *. cbn in *. destruct Hv as [Hv|[Hv|Hv]]; [tauto|discriminate Hv|tauto].
    + intros B. apply Mf. destruct B as [->|(p & T & (f & Hf' & Hp))]; [now left|right]. exists p. split; [exact T|]. apply (te_child g HA) in T. destruct (child_lt g HA p v T) as (Lp & _). cbn in Lf.
      apply (swap_in a b (FVertex u)) in Hf' as [->|(Hf' & _)]; [destruct Hp as [<-|[<-|[]]]; lia|]. now exists f.
  - unfold c'. apply (pd_perm _ _ (Permutation_middle a b (FVertex u))). apply pd_cons. split; [|exact PDab]. apply Forall_forall. intros f Hf v Hv Hv'. destruct Hv as [<-|[]]. apply (PDx f Hf u); cbn; auto.
Qed.

(** Through sorting: the position of the new factor, and the way back. *)
Lemma resort c i f f' : listed c -> pd c -> nth_error c i = Some f -> pd (lset c i f') -> exists a b j, c = a ++ f :: b /\ lset c i f' = a ++ f' :: b /\
  nth_error (f_sort (lset c i f')) j = Some f' /\ f_sort (lset (f_sort (lset c i f')) j f) = c.
Proof.
  intros HL PD Hi PD'. destruct (lset_split c i f f' Hi) as (a & b & E & E'). exists a, b. pose proof (f_sort_perm (lset c i f')) as P.
  assert (In f' (f_sort (lset c i f'))) as K by (eapply Permutation_in; [apply Permutation_sym, P|]; rewrite E'; apply in_app_iff; right; now left).
  apply In_nth_error in K as (j & Hj). exists j. split; [exact E|]. split; [exact E'|]. split; [exact Hj|].
  destruct (lset_split _ j f' f Hj) as (a2 & b2 & F & F'). rewrite F'. assert (Q : Permutation (a2 ++ f :: b2) c).
  { rewrite E. rewrite <- !Permutation_middle. constructor. rewrite E' in P, F. rewrite F in P. rewrite <- !Permutation_middle in P. now apply Permutation_cons_inv in P. }
  rewrite (f_sort_eq (a2 ++ f :: b2) c); [now apply f_sort_id|now apply (pd_perm c); [apply Permutation_sym|]|exact Q].
Qed.
Lemma pair_up c i u w : listed c -> pd c -> Forall (closed_cell g) c -> first_mobile g c i (FVertex u) -> child g w u -> free c w u ->
  exists j, let c' := f_sort (lset c i (FEdge w u)) in first_mobile g c' j (FEdge w u) /\ listed c' /\ pd c' /\ Forall (closed_cell g) c' /\ f_sort (lset c' j (FVertex u)) = c.
Proof.
  intros HL PD HF FM C F. apply first_mobile_low in FM as (Hi & M & Lo); [|exact HL]. destruct (lset_split c i _ (FEdge w u) Hi) as (a & b & E & E'). subst c.
  destruct (pair_up_mobile a b u w C M Lo PD F) as (M' & Lo' & PD'). rewrite <- E' in *. set (c := a ++ FVertex u :: b) in *.
  destruct (resort c i _ (FEdge w u) HL PD Hi PD') as (_ & _ & j & _ & _ & Hj & Back). exists j. cbn zeta. set (c' := f_sort (lset c i (FEdge w u))) in *. pose proof (f_sort_perm (lset c i (FEdge w u))) as P. fold c' in P.
  assert (HL' : listed c') by now apply f_sort_listed. split; [|split; [exact HL'|split; [now apply f_sort_pd|split; [|exact Back]]]].
  - apply first_mobile_low; [exact HL'|]. split; [exact Hj|]. split; [eapply mobile_perm; [apply Permutation_sym, P|exact M']|].
    intros f Hf L Mf. apply (Lo' f); [eapply Permutation_in; [exact P|exact Hf]|exact L|]. eapply mobile_perm; [exact P|exact Mf].
  - apply (Permutation_Forall (Permutation_sym P)). rewrite E'. unfold c in HF. apply Forall_app in HF as (H1 & H2). inversion H2; subst. apply Forall_app. split; [exact H1|]. constructor; [|assumption].
    destruct (child_lt g HA w u C) as (Lw & _ & Ew). split; assumption.
Qed.
Lemma pair_down c i u w : listed c -> pd c -> Forall (closed_cell g) c -> first_mobile g c i (FEdge w u) -> free c w u ->
  exists j, let c' := f_sort (lset c i (FVertex u)) in first_mobile g c' j (FVertex u) /\ listed c' /\ pd c' /\ Forall (closed_cell g) c' /\ f_sort (lset c' j (FEdge w u)) = c.
Proof.
  intros HL PD HF FM F. apply first_mobile_low in FM as (Hi & M & Lo); [|exact HL]. destruct (lset_split c i _ (FVertex u) Hi) as (a & b & E & E'). subst c.
  destruct (pair_down_mobile a b u w M Lo PD F) as (M' & Lo' & PD'). rewrite <- E' in *. set (c := a ++ FEdge w u :: b) in *.
  destruct (resort c i _ (FVertex u) HL PD Hi PD') as (_ & _ & j & _ & _ & Hj & Back). exists j. cbn zeta. set (c' := f_sort (lset c i (FVertex u))) in *. pose proof (f_sort_perm (lset c i (FVertex u))) as P. fold c' in P.
  assert (HL' : listed c') by now apply f_sort_listed. split; [|split; [exact HL'|split; [now apply f_sort_pd|split; [|exact Back]]]].
  - apply first_mobile_low; [exact HL'|]. split; [exact Hj|]. split; [eapply mobile_perm; [apply Permutation_sym, P|exact M']|].
    intros f Hf L Mf. apply (Lo' f); [eapply Permutation_in; [exact P|exact Hf]|exact L|]. eapply mobile_perm; [exact P|exact Mf].
  - apply (Permutation_Forall (Permutation_sym P)). rewrite E'. unfold c in HF. apply Forall_app in HF as (H1 & H2). inversion H2; subst. apply Forall_app. split; [exact H1|]. constructor; [|assumption].
    assert (C : child g w u) by (apply (te_child g HA), M). destruct (child_lt g HA w u C) as (_ & Lu & _). exact Lu.
Qed.

(** Points and single edges are always free. *)
Lemma points_free c i u w : listed c -> pd c -> Forall (closed_cell g) c -> dimension c = 0 -> first_mobile g c i (FVertex u) -> child g w u -> free c w u.
Proof.
  intros HL PD HF D0 FM C. assert (HV : forall f, In f c -> exists v, f = FVertex v).
  { intros f Hf. destruct f as [x y|v]; [|eauto]. exfalso. unfold dimension in D0. assert (In (FEdge x y) (filter (fun f => match f with FEdge _ _ => true | _ => false end) c)) as K by (apply filter_In; auto). destruct (filter _ c); [destruct K|discriminate D0]. }
  assert (exists l, c = V l) as (l & ->).
  { clear - HV. induction c as [|f t IH]; [exists []; reflexivity|]. destruct (HV f (or_introl eq_refl)) as (v & ->). destruct IH as (l & ->); [intros f Hf; apply HV; now right|]. now exists (v :: l). }
  apply first_mobile_low in FM as (Hi & M & Lo); [|exact HL]. intros f Hf N _. destruct (HV f Hf) as (v & ->).
  assert (Hin : forall x, In (FVertex x) (V l) -> In x l) by (intros x K; apply in_map_iff in K as (y & E & K); congruence). rewrite Forall_forall in HF.
  assert (Ol : ok g l). { split; [|intros x Hx; exact (HF _ (in_map FVertex _ _ Hx))]. clear - PD. induction l as [|x t IH]; constructor; inversion PD as [|? ? P1 P2]; subst; [|now apply IH]. intros K. rewrite Forall_forall in P1. exact (disjoint_neq _ _ (P1 _ (in_map FVertex _ _ K)) eq_refl). }
  destruct (clear_below g HA l u w Ol (Hin u (nth_error_In _ _ Hi)) C) with (v := v) as [K|K].
  - intros K. apply M. now apply (blocked_V g HA l u w C).
  - intros x Hx L. destruct (blocked_dec g HA (V l) x (proj2 Ol x Hx)) as [B|B]; [exact B|]. exfalso. apply (Lo (FVertex x)); [now apply in_map|exact L|exact B].
  - now apply Hin.
  - congruence.
  - left. intros x [<-|[]]. exact K.
  - right. intros x [<-|[]]. exact K.
Qed.
Lemma edge_free c i u w : pd c -> dimension c = 1 -> nth_error c i = Some (FEdge w u) -> mobile g c (FEdge w u) -> free c w u.
Proof.
  intros PD D1 Hi (T & H) f Hf N1 N2. apply (te_child g HA) in T. destruct (child_lt g HA w u T) as (Lw & _). apply nth_error_In in Hi. apply in_split in Hi as (a & b & ->).
  assert (PD2 := pd_perm _ _ (Permutation_sym (Permutation_middle a b (FEdge w u))) PD). apply pd_cons in PD2 as (PDx & _). rewrite Forall_forall in PDx.
  assert (Hab : In f (a ++ b)) by (rewrite in_app_iff in *; cbn in Hf; destruct Hf as [?|[?|?]]; [tauto|congruence|tauto]).
  destruct f as [x y|v].
  - exfalso. unfold dimension in D1. rewrite filter_app, app_length in D1. cbn in D1. assert (1 <= length (filter (fun f => match f with FEdge _ _ => true | _ => false end) (a ++ b))) as K.
    { assert (In (FEdge x y) (filter (fun f => match f with FEdge _ _ => true | _ => false end) (a ++ b))) as K by (apply filter_In; auto). destruct (filter _ (a ++ b)); [destruct K|cbn; lia]. }
    rewrite filter_app, app_length in K. lia.
  - specialize (H v Hf). assert (v <> w /\ v <> u) as (Nw & Nu) by (split; intros ->; apply (PDx _ Hab) with (v := w) || apply (PDx _ Hab) with (v := u); cbn; auto).
    destruct (Nat.lt_ge_cases v w); [left|right]; intros z [<-|[]]; lia.
Qed.
End G.
