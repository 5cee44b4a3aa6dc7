(** Proofs about products, inverses, powers and generators. *)
From Coq Require Import List Arith ZArith Bool Lia ZifyBool ZifyNat Sorted Permutation.
From Verif Require Import PidModel PermModel PermSpec PermProofs.
Import ListNotations.
Open Scope nat_scope.

(** Sorting. *)
Lemma insert_perm c l : Permutation (insert_cycle c l) (c :: l).
Proof.
  induction l as [|d l IH]; cbn [insert_cycle]; auto. destruct (ccmp c d); auto.
  eapply perm_trans; [apply perm_skip, IH|apply perm_swap].
Qed.
Lemma sort_perm l : Permutation (sort_cycles l) l.
Proof. induction l as [|c l IH]; cbn; auto. eapply perm_trans; [apply insert_perm|]. auto. Qed.
Lemma Permutation_concat {A} (l m : list (list A)) : Permutation l m -> Permutation (concat l) (concat m).
Proof.
  induction 1; cbn; auto.
  - now apply Permutation_app_head.
  - rewrite !app_assoc. apply Permutation_app_tail, Permutation_app_comm.
  - eapply perm_trans; eauto.
Qed.
Definition hlt (c d : cycle) : Prop := hd 0 c < hd 0 d.
Lemma insert_sorted c l : c <> [] -> Forall (fun d => d <> []) l -> NoDup (concat (c :: l)) ->
  StronglySorted hlt l -> StronglySorted hlt (insert_cycle c l).
Proof.
  intros Hc F N S. induction l as [|d l IH]; cbn [insert_cycle].
  - repeat constructor.
  - inversion F as [|? ? Hd F']; subst. inversion S as [|? ? S' Fh]; subst.
    assert (Hne : c <> d).
    { intros ->. destruct d as [|x d]; [congruence|]. cbn in N. inversion N as [|? ? K _]; subst. apply K.
      apply in_or_app. right. now left. }
    assert (Hh : hd 0 c <> hd 0 d).
    { destruct c as [|x c], d as [|y d]; try congruence. cbn in *. intros ->. inversion N as [|? ? K _]; subst. apply K.
      apply in_or_app. right. now left. }
    unfold ccmp. destruct (cycle_eq_dec c d); [contradiction|]. destruct c as [|x c]; [congruence|]. destruct d as [|y d]; [congruence|].
    cbn [hd] in Hh. destruct (Nat.compare_spec x y) as [E|E|E]; [contradiction| |].
    + constructor; auto. constructor; auto. eapply Forall_impl; [|exact Fh]. intros e. unfold hlt. cbn [hd]. lia.
    + constructor.
      * apply IH; auto. cbn [concat] in N |- *. apply NoDup_app_intro.
        -- eapply NoDup_app_remove_r; eauto.
        -- apply NoDup_app_remove_l in N. eapply NoDup_app_remove_l; eauto.
        -- intros z Z1 Z2. eapply NoDup_app_disj; eauto. apply in_or_app; now right.
      * eapply (Permutation_Forall (Permutation_sym (insert_perm _ _))). constructor; auto.
Qed.
Lemma sort_sorted l : Forall (fun d => d <> []) l -> NoDup (concat l) -> StronglySorted hlt (sort_cycles l).
Proof.
  induction l as [|c l IH]; cbn [sort_cycles fold_right]; intros F N; [constructor|].
  inversion F; subst. change (fold_right insert_cycle [] l) with (sort_cycles l). apply insert_sorted; auto.
  - eapply (Permutation_Forall (Permutation_sym (sort_perm l))); auto.
  - cbn [concat] in *. eapply Permutation_NoDup; [|exact N]. apply Permutation_app_head. apply Permutation_concat, Permutation_sym, sort_perm.
  - apply IH; auto. eapply NoDup_app_remove_l; eauto.
Qed.

Definition isne (c : cycle) : bool := negb (match c with [] => true | _ => false end).
Lemma isne_spec c : isne c = true <-> c <> [].
Proof. destruct c; cbn; split; congruence. Qed.
Lemma concat_filter_ne cs : concat (filter isne cs) = concat cs.
Proof. induction cs as [|c cs IH]; cbn; auto. destruct c; cbn; rewrite IH; auto. Qed.

Lemma fdc_unfold cs : from_disjoint_cycles cs =
  (let cs' := match filter isne cs with [] => [[]] | _ => filter isne cs end in
   do u <- unfixed (sort_cycles cs'); if no_repeat [] u then Some (sort_cycles cs') else None).
Proof. reflexivity. Qed.

Lemma unfixed_ne p : p <> [] -> Forall (fun c => c <> []) p -> unfixed p = Some (concat p).
Proof.
  assert (K : forall l, Forall (fun c : cycle => c <> []) l -> unfixed_rest l = concat l).
  { induction l as [|c l IH]; intro H; [reflexivity|]. inversion H as [|? ? L Hl]; subst. cbn [unfixed_rest concat].
    destruct c; [congruence|]. now rewrite IH. }
  intros H F. destruct p as [|c p]; [congruence|]. inversion F; subst. cbn. now rewrite K.
Qed.

Lemma pmap_identity x : pmap identity x = x.
Proof. unfold pmap, identity, cmap. cbn. now rewrite Nat.eqb_refl. Qed.

Lemma fdc_spec cs : Forall ccan cs -> NoDup (concat cs) -> exists p, from_disjoint_cycles cs = Some p /\ normal p /\
  (forall c x, In c cs -> In x c -> pmap p x = cmap c x) /\ (forall x, ~ In x (concat cs) -> pmap p x = x).
Proof.
  intros F N. rewrite fdc_unfold.
  destruct (filter isne cs) as [|c0 cs0] eqn:Ef.
  - exists [[]]. assert (E : concat cs = []) by (rewrite <- concat_filter_ne, Ef; reflexivity).
    split; [reflexivity|]. split; [now left|]. split.
    + intros c x Hc Hx. exfalso. assert (In x (concat cs)) by (apply in_concat; eauto). rewrite E in H. auto.
    + intros x _. apply pmap_identity.
  - rewrite <- Ef. set (l := filter isne cs) in *.
    assert (Fne : Forall (fun c => c <> []) l).
    { apply Forall_forall. intros c Hc. apply filter_In in Hc as [_ Hc]. now apply isne_spec. }
    assert (Nl : NoDup (concat l)) by (unfold l; now rewrite concat_filter_ne).
    assert (Ps : Permutation (sort_cycles l) l) by apply sort_perm.
    assert (Nn : sort_cycles l <> []).
    { intro E. rewrite E in Ps. apply Permutation_nil in Ps. rewrite Ps in Ef. discriminate. }
    assert (Ns : NoDup (concat (sort_cycles l))).
    { eapply Permutation_NoDup; [|exact Nl]. apply Permutation_concat. now apply Permutation_sym. }
    cbn zeta. replace (match l with [] => [[]] | _ :: _ => l end) with l by (rewrite Ef; reflexivity).
    rewrite unfixed_ne; auto. 2: { eapply Permutation_Forall; [apply Permutation_sym, Ps|auto]. }
    cbn [obind]. rewrite (proj2 (no_repeat_nil _) Ns). eexists; split; [reflexivity|].
    assert (IL : forall c, In c (sort_cycles l) <-> (In c cs /\ c <> [])).
    { intro c. split; intro H.
      - apply (Permutation_in _ Ps) in H. apply filter_In in H as [H1 H2]. apply isne_spec in H2. auto.
      - apply (Permutation_in _ (Permutation_sym Ps)). apply filter_In. rewrite isne_spec. auto. }
    split; [|split].
    + right. split; auto. split; [|split; auto].
      * apply Forall_forall. intros c Hc. apply IL in Hc as [H1 H2]. rewrite Forall_forall in F.
        destruct (F c H1) as [?|(A & B & C)]; [contradiction|auto].
      * now apply sort_sorted.
    + intros c x Hc Hx. apply pmap_in; auto. apply IL. split; auto. intros ->. contradiction.
    + intros x Hx. apply pmap_notin; auto. intro K. apply Hx. rewrite <- concat_filter_ne. fold l.
      eapply Permutation_in; [apply Permutation_concat, Ps|auto].
Qed.
Lemma fdc_none cs : ~ NoDup (concat cs) -> from_disjoint_cycles cs = None.
Proof.
  intros N. rewrite fdc_unfold.
  destruct (filter isne cs) as [|c0 cs0] eqn:Ef.
  - exfalso. apply N. rewrite <- concat_filter_ne, Ef. constructor.
  - rewrite <- Ef. set (l := filter isne cs) in *.
    assert (Fne : Forall (fun c => c <> []) l).
    { apply Forall_forall. intros c Hc. apply filter_In in Hc as [_ Hc]. now apply isne_spec. }
    assert (Ps : Permutation (sort_cycles l) l) by apply sort_perm.
    assert (Nn : sort_cycles l <> []).
    { intro E. rewrite E in Ps. apply Permutation_nil in Ps. rewrite Ps in Ef. discriminate. }
    cbn zeta. replace (match l with [] => [[]] | _ :: _ => l end) with l by (rewrite Ef; reflexivity).
    rewrite unfixed_ne; auto. 2: { eapply Permutation_Forall; [apply Permutation_sym, Ps|auto]. }
    cbn [obind]. destruct (no_repeat [] (concat (sort_cycles l))) eqn:E; auto. exfalso. apply no_repeat_nil in E.
    apply N. rewrite <- concat_filter_ne. fold l. eapply Permutation_NoDup; [|exact E]. now apply Permutation_concat.
Qed.

(** ** The inner loop. *)
Definition is_path (f : nat -> nat) (first : nat) (acc : list nat) : Prop :=
  hd_error acc = Some first /\ forall i, S i < length acc -> f (nth i acc 0) = nth (S i) acc 0.

Lemma orbit_spec f S0 first : (forall x y, f x = f y -> x = y) -> (forall x, In x S0 -> In (f x) S0) ->
  forall fuel elem acc, is_path f first acc -> NoDup acc -> incl acc S0 -> last acc 0 = elem ->
  length S0 < fuel + length acc ->
  exists r, orbit fuel f first elem acc = Some r /\ NoDup r /\ incl r S0 /\ hd_error r = Some first /\ cycles_along f r.
Proof.
  intros Inj Cl. induction fuel as [|k IH]; intros elem acc P N I L B.
  - exfalso. pose proof (NoDup_incl_length N I). lia.
  - cbn [orbit].
    destruct acc as [|a acc]; [destruct P; discriminate|].
    assert (Ha : a = first) by (destruct P as [P _]; cbn in P; congruence). subst a.
    set (m := length acc).
    assert (El : elem = nth m (first :: acc) 0).
    { rewrite <- L. clear. subst m. generalize first. induction acc as [|b acc IHa]; intro a; auto.
      change (last (b :: acc) 0 = nth (length acc) (b :: acc) 0). apply IHa. }
    destruct P as [_ P]. cbn [length] in P. fold m in P.
    destruct (Nat.eqb_spec (f elem) first) as [E|E].
    + eexists; split; [reflexivity|]. repeat split; auto. intros i Hi. cbn [length] in *. fold m in Hi |- *.
      destruct (Nat.eqb_spec (S i) (S m)).
      * assert (i = m) by lia. subst i. rewrite <- El. cbn. exact E.
      * apply P. lia.
    + assert (New : ~ In (f elem) (first :: acc)).
      { intro K. apply (In_nth _ _ 0) in K as (j & Hj & Ej). cbn [length] in Hj. fold m in Hj. destruct j as [|j]; [cbn in Ej; congruence|].
        rewrite <- P in Ej by lia. apply Inj in Ej. rewrite El in Ej.
        rewrite NoDup_nth in N. apply N in Ej; cbn [length]; fold m; lia. }
      apply IH.
      * split; [reflexivity|]. intros i Hi. rewrite app_length in Hi. cbn [length] in Hi. fold m in Hi.
        destruct (Nat.eq_dec i m) as [->|Hne].
        -- rewrite app_nth1 by (cbn [length]; fold m; lia). rewrite app_nth2 by (cbn [length]; fold m; lia).
           cbn [length]. fold m. rewrite Nat.sub_diag. cbn. now rewrite El.
        -- rewrite !app_nth1 by (cbn [length]; fold m; lia). apply P. lia.
      * apply NoDup_app_intro; auto; [repeat constructor; intros []|]. intros x Hx [<-|[]]. contradiction.
      * intros x Hx. apply in_app_or in Hx as [Hx|[<-|[]]]; auto. apply Cl, I. rewrite El. apply nth_In. cbn [length]. fold m. lia.
      * apply last_last.
      * rewrite app_length. cbn [length]. cbn [length] in B. lia.
Qed.
Lemma orbit_start f S0 first fuel : (forall x y, f x = f y -> x = y) -> (forall x, In x S0 -> In (f x) S0) ->
  In first S0 -> length S0 <= fuel ->
  exists r, orbit fuel f first first [first] = Some r /\ NoDup r /\ incl r S0 /\ hd_error r = Some first /\ cycles_along f r.
Proof.
  intros Inj Cl Hf B. apply orbit_spec with (S0 := S0); auto.
  - split; [reflexivity|]. cbn. lia.
  - repeat constructor. intros [].
  - intros x [<-|[]]; auto.
  - cbn. lia.
Qed.

(** ** The outer loop. Processed cycles are kept together with the orbits they came from. *)
Lemma mul_loop_spec f S0 ofuel : (forall x y, f x = f y -> x = y) -> (forall x, In x S0 -> In (f x) S0) -> length S0 <= ofuel ->
  forall fuel unf orbs prod,
  Forall2 (fun o c => NoDup o /\ o <> [] /\ cycles_along f o /\ cycle_from o = Some c) orbs prod ->
  NoDup (concat orbs) -> incl unf S0 -> incl (concat orbs) S0 -> (forall x, In x unf -> ~ In x (concat orbs)) ->
  (forall x, In x S0 -> In x unf \/ In x (concat orbs)) -> length unf <= fuel ->
  exists orbs' prod', mul_loop ofuel fuel f unf prod = Some prod' /\
   Forall2 (fun o c => NoDup o /\ o <> [] /\ cycles_along f o /\ cycle_from o = Some c) orbs' prod' /\
   NoDup (concat orbs') /\ incl (concat orbs') S0 /\ incl S0 (concat orbs').
Proof.
  intros Inj Cl Bo. induction fuel as [|k IH]; intros unf orbs prod F N I1 I2 D C B.
  - destruct unf; [|cbn in B; lia]. exists orbs, prod. cbn [mul_loop]. repeat split; auto. intros x Hx. destruct (C x Hx) as [[]|]; auto.
  - destruct unf as [|x unf].
    { exists orbs, prod. cbn [mul_loop]. repeat split; auto. intros x Hx. destruct (C x Hx) as [[]|]; auto. }
    cbn [mul_loop].
    destruct (orbit_start f S0 x ofuel Inj Cl) as (o & Eo & No & Io & Ho & Ao); auto; [apply I1; now left|].
    rewrite Eo. cbn [obind].
    assert (On : o <> []) by (intros ->; discriminate).
    destruct (cycle_from_some o No On) as [c Ec]. rewrite Ec. cbn [obind].
    assert (Hxo : In x o) by (destruct o; [discriminate|]; cbn in Ho; left; congruence).
    assert (Disj : forall y, In y o -> In y (concat orbs) -> False).
    { intros y Hy K. apply in_concat in K as (o' & Ho' & Hy').
      assert (Ao' : cycles_along f o').
      { clear - F Ho'. induction F as [|a b la lb R F IHF]; [contradiction|]. destruct Ho' as [<-|Ho']; [tauto|auto]. }
      destruct (cycle_is_orbit f o y x Ao Hy Hxo) as [i Ei].
      apply (D x (or_introl eq_refl)). apply in_concat. exists o'. split; auto. rewrite <- Ei. now apply iter_in. }
    destruct (IH (filter (fun y => negb (contains o y)) (x :: unf)) (orbs ++ [o]) (prod ++ [c])) as (orbs' & prod' & E' & R').
    + apply Forall2_app; auto.
    + rewrite concat_app. cbn [concat]. rewrite app_nil_r. apply NoDup_app_intro; auto. intros y H1 H2. eapply Disj; eauto.
    + intros y Hy. apply filter_In in Hy as [Hy _]. auto.
    + rewrite concat_app. cbn [concat]. rewrite app_nil_r. intros y Hy. apply in_app_or in Hy as [Hy|Hy]; auto.
    + intros y Hy. apply filter_In in Hy as [Hy Hb]. rewrite negb_true_iff in Hb. apply contains_false in Hb.
      rewrite concat_app. cbn [concat]. rewrite app_nil_r. rewrite in_app_iff. intros [K|K]; [|contradiction]. eapply D; eauto.
    + intros y Hy. rewrite concat_app. cbn [concat]. rewrite app_nil_r.
      destruct (in_dec Nat.eq_dec y o) as [Hyo|Hyo]; [right; apply in_or_app; now right|].
      destruct (C y Hy) as [K|K]; [left|right; apply in_or_app; now left].
      apply filter_In. split; auto. apply contains_false in Hyo. now rewrite Hyo.
    + assert (Lf : forall g (l : list nat), length (filter g l) <= length l).
      { intros g l. induction l as [|z l IHl]; cbn; auto. destruct (g z); cbn; lia. }
      cbn [filter]. apply contains_In in Hxo. rewrite Hxo. cbn [negb]. cbn [length] in B.
      eapply Nat.le_trans; [apply Lf|]. lia.
    + exists orbs', prod'. split; [exact E'|exact R'].
Qed.

Theorem pmul_spec p q : normal p -> normal q -> exists r, pmul p q = Some r /\ normal r /\ forall x, pmap r x = pmap p (pmap q x).
Proof.
  intros Hp Hq. unfold pmul. rewrite !unfixed_normal by auto. cbn [obind].
  set (S0 := concat q ++ concat p). set (f := fun x => pmap p (pmap q x)).
  pose proof (pmap_bijective p (normal_disj p Hp)) as [Ip Sp]. pose proof (pmap_bijective q (normal_disj q Hq)) as [Iq Sq].
  assert (Inj : forall x y, f x = f y -> x = y) by (intros x y E; apply Iq, Ip; exact E).
  assert (Fix : forall x, ~ In x S0 -> f x = x).
  { intros x Hx. unfold S0 in Hx. rewrite in_app_iff in Hx. unfold f. rewrite (pmap_notin q) by (auto using normal_disj).
    rewrite (pmap_notin p); auto using normal_disj. }
  assert (Cl : forall x, In x S0 -> In (f x) S0).
  { intros x Hx. destruct (in_dec Nat.eq_dec (f x) S0) as [|K]; auto. pose proof (Fix _ K) as E. apply Inj in E. congruence. }
  destruct (mul_loop_spec f S0 (S (length S0)) Inj Cl (Nat.le_succ_diag_r _) (length S0) S0 [] []) as (orbs & prod & E & F & N & I1 & I2); auto.
  { constructor. } { intros x Hx; auto. } { intros x []. }
  rewrite E. cbn [obind].
  assert (G : Forall ccan prod /\ NoDup (concat prod) /\
     (forall x, In x (concat prod) -> In x (concat orbs)) /\
     (forall x, In x (concat orbs) -> (exists c, In c prod /\ In x c /\ cmap c x = f x) \/ (f x = x /\ ~ In x (concat prod)))).
  { clear - F N. induction F as [|o c orbs prod (No & On & Ao & Ec) F IH]; [cbn; split; [constructor|split; [constructor|split; [auto|intros x []]]]|].
    cbn [concat] in N. assert (Nt : NoDup (concat orbs)) by (eapply NoDup_app_remove_l; eauto).
    destruct (IH Nt) as (G1 & G2 & G3 & G4).
    assert (Hc : forall x, In x c -> In x o).
    { intros x Hx. destruct (cycle_from_inv o c Ec) as (_ & _ & [[L ->]|(L & k & K & -> & _)]); [contradiction|].
      now apply In_rot in Hx. }
    assert (Dis : forall x, In x o -> In x (concat prod) -> False).
    { intros x H1 H2. apply G3 in H2. eapply NoDup_app_disj; eauto. }
    split; [constructor; auto; eapply cycle_from_ccan; eauto|]. split; [|split].
    - cbn [concat]. apply NoDup_app_intro; auto; [apply ccan_NoDup; eapply cycle_from_ccan; eauto|].
      intros x H1 H2. eapply Dis; eauto.
    - cbn [concat]. intros x Hx. apply in_app_or in Hx as [Hx|Hx]; apply in_or_app; auto.
    - cbn [concat]. intros x Hx. apply in_app_or in Hx as [Hx|Hx].
      + destruct (cycle_from_inv o c Ec) as (_ & _ & [[L ->]|(L & k & K & Ek & _)]).
        * right. destruct o as [|y [|z o]]; cbn in L; try lia. destruct Hx as [<-|[]]. split; [exact (Ao 0 ltac:(cbn; lia))|].
          cbn [app]. intro K. apply (Dis y); auto. now left.
        * left. exists c. split; [now left|]. split; [rewrite Ek; now apply In_rot|].
          pose proof (cycle_from_map o c Ec) as [M _]. apply (In_nth _ _ 0) in Hx as (i & Hi & <-). now rewrite M, Ao.
      + destruct (G4 x Hx) as [(d & Hd & Hxd & Ed)|[Ef K]].
        * left. exists d. split; [now right|]. auto.
        * right. split; auto. rewrite in_app_iff. intros [H1|H1]; [|contradiction].
          apply Hc in H1. eapply NoDup_app_disj; eauto. }
  destruct G as (G1 & G2 & G3 & G4).
  destruct (fdc_spec prod G1 G2) as (r & Er & Hr & R1 & R2). exists r. split; auto. split; auto.
  intro x. fold (f x). destruct (in_dec Nat.eq_dec x S0) as [Hx|Hx].
  - destruct (G4 x (I2 x Hx)) as [(c & Hc & Hxc & Ex)|[Ef K]].
    + now rewrite (R1 c x Hc Hxc).
    + now rewrite R2.
  - rewrite R2, Fix; auto. 
Qed.

Lemma normal_identity : normal identity. Proof. now left. Qed.

(** ** Products of lists: the last factor is applied last. *)
Fixpoint compose_all (l : list perm) (x : nat) : nat :=
  match l with [] => x | p :: l => compose_all l (pmap p x) end.
Lemma pproduct_acc l a : normal a -> Forall normal l ->
  exists r, fold_left (fun acc p => do b <- acc; pmul p b) l (Some a) = Some r /\ normal r /\
    forall x, pmap r x = compose_all l (pmap a x).
Proof.
  revert a. induction l as [|p l IH]; intros a Ha F; cbn [fold_left compose_all]; [exists a; auto|].
  inversion F; subst. cbn [obind]. destruct (pmul_spec p a) as (b & Eb & Hb & Mb); auto. rewrite Eb.
  destruct (IH b Hb) as (r & Er & Hr & Mr); auto. exists r. repeat split; auto. intro x. rewrite Mr, Mb. reflexivity.
Qed.
Lemma pproduct_spec l : Forall normal l -> exists r, pproduct l = Some r /\ normal r /\ forall x, pmap r x = compose_all l x.
Proof. intro F. destruct (pproduct_acc l identity normal_identity F) as (r & H). exists r.
  destruct H as (A & B & C). repeat split; auto. intro x. rewrite C. now rewrite pmap_identity. Qed.

(** ** Transpositions and generators. *)
Definition trans_map (a b x : nat) : nat := if x =? a then b else if x =? b then a else x.
Lemma transposition_spec a b : a <> b -> exists t, transposition a b = Some t /\ normal t /\
  (forall x, pmap t x = trans_map a b x) /\ unfixed t = Some (if a <? b then [a; b] else [b; a]).
Proof.
  intro H. unfold transposition.
  assert (N : NoDup [a; b]) by (repeat constructor; cbn; intuition).
  destruct (cycle_from_some [a; b] N ltac:(discriminate)) as [c E]. rewrite E. cbn [obind].
  pose proof (cycle_from_ccan _ _ E) as Cc. pose proof (cycle_from_map _ _ E) as [M1 M2].
  destruct (fdc_spec [c]) as (t & Et & Ht & T1 & T2).
  { constructor; auto. } { cbn. rewrite app_nil_r. now apply ccan_NoDup. }
  exists t. split; auto. split; auto. split.
  - intro x. unfold trans_map. pose proof (M1 0 ltac:(cbn; lia)) as Ma. pose proof (M1 1 ltac:(cbn; lia)) as Mb. cbn in Ma, Mb.
    assert (Ic : forall y, In y c <-> In y [a; b]) by (intro y; apply (cycle_from_In _ _ y E); cbn; lia).
    destruct (Nat.eqb_spec x a) as [->|Na].
    { rewrite (T1 c); auto; [now left|]. apply Ic. now left. }
    destruct (Nat.eqb_spec x b) as [->|Nb].
    { rewrite (T1 c); auto; [now left|]. apply Ic. right; now left. }
    apply T2. cbn. rewrite app_nil_r. rewrite Ic. cbn. intuition.
  - revert Et. unfold cycle_from in E. cbn [length Nat.eqb] in E. rewrite (proj2 (no_repeat_nil _) N) in E. cbn [negb] in E.
    unfold bring_smallest_first in E. cbn [min_index] in E. destruct (Nat.leb_spec a b) as [L|L].
    + cbn in E. injection E as <-. rewrite (proj2 (Nat.ltb_lt a b)) by lia. 
      unfold from_disjoint_cycles. cbn [filter negb sort_cycles fold_right insert_cycle unfixed unfixed_rest obind app].
      rewrite (proj2 (no_repeat_nil _) N). intro K; injection K as <-. reflexivity.
    + cbn [obind Nat.eqb skipn take_while app] in E. destruct (Nat.eqb_spec a b); [lia|]. cbn [negb app] in E. rewrite Nat.eqb_refl in E. cbn in E.
      injection E as <-. rewrite (proj2 (Nat.ltb_ge a b)) by lia.
      assert (N' : NoDup [b; a]) by (repeat constructor; cbn; intuition).
      unfold from_disjoint_cycles. cbn [filter negb sort_cycles fold_right insert_cycle unfixed unfixed_rest obind app].
      rewrite (proj2 (no_repeat_nil _) N'). intro K; injection K as <-. reflexivity.
Qed.

(** The generators of one cycle. *)
Definition is_trans (t : perm) : Prop := normal t /\ exists a b, a <> b /\ forall x, pmap t x = trans_map a b x.
Lemma omap_trans a l : ~ In a l -> exists ts, omap (fun e => transposition a e) l = Some ts /\
  Forall2 (fun e t => transposition a e = Some t) l ts.
Proof.
  induction l as [|b l IH]; intro H; cbn [omap]; [exists []; auto|].
  destruct (transposition_spec a b) as (t & E & _); [intros ->; apply H; now left|].
  rewrite E. cbn [obind]. destruct IH as (ts & Ets & F); [intro; apply H; now right|]. rewrite Ets. cbn [obind].
  exists (t :: ts). auto.
Qed.
Lemma omap_Forall2 {A B} (f : A -> option B) l m : omap f l = Some m <-> Forall2 (fun a b => f a = Some b) l m.
Proof.
  revert m. induction l as [|a l IH]; intro m; cbn [omap].
  - split; [intro H; injection H as <-; constructor|intro H; inversion H; reflexivity].
  - split.
    + destruct (f a) as [b|] eqn:E; cbn [obind]; [|discriminate]. destruct (omap f l) as [bs|] eqn:E2; cbn [obind]; [|discriminate].
      intro H; injection H as <-. constructor; auto. now apply IH.
    + intro H. inversion H as [|? b ? bs E F]; subst. rewrite E. cbn [obind]. apply IH in F. rewrite F. reflexivity.
Qed.
(** composition of (a b1), (a b2), ...: a -> b1 -> b2 -> ... -> a. *)
Lemma compose_trans a l ts : ~ In a l -> NoDup l -> Forall2 (fun e t => transposition a e = Some t) l ts ->
  forall x, compose_all ts x = cmap (a :: l) x.
Proof.
  intros Ha Nl F. apply is_cycle_map_unique with (l := a :: l); [|apply cmap_cycles; constructor; auto].
  assert (T : forall e t x, e <> a -> transposition a e = Some t -> pmap t x = trans_map a e x).
  { intros e t x He Et. destruct (transposition_spec a e) as (t' & E' & _ & M & _); auto. congruence. }
  assert (K1 : forall x, ~ In x (a :: l) -> compose_all ts x = x).
  { intros x Hx. clear Nl. induction F as [|e t l ts Et F IH]; [reflexivity|]. cbn [compose_all].
    rewrite (T e t) by (auto; intros ->; apply Ha; now left). unfold trans_map.
    destruct (Nat.eqb_spec x a) as [->|]; [exfalso; apply Hx; now left|].
    destruct (Nat.eqb_spec x e) as [->|]; [exfalso; apply Hx; right; now left|].
    apply IH; [intro; apply Ha; now right|]. intros [->|K]; [congruence|]. apply Hx. right; now right. }
  split; auto.
  assert (K2 : compose_all ts a = hd a l).
  { clear K1. destruct F as [|e t l ts Et F]; [reflexivity|]. cbn [compose_all hd].
    rewrite (T e t) by (auto; intros ->; apply Ha; now left). unfold trans_map. rewrite Nat.eqb_refl.
    inversion Nl as [|? ? He Nl']; subst. assert (He2 : e <> a) by (intros ->; apply Ha; now left).
    clear Nl Et. induction F as [|e' t' l ts Et' F IH]; [reflexivity|]. cbn [compose_all].
    rewrite (T e' t') by (auto; intros ->; apply Ha; right; now left). unfold trans_map.
    destruct (Nat.eqb_spec e a); [contradiction|]. destruct (Nat.eqb_spec e e') as [->|]; [exfalso; apply He; now left|].
    apply IH; [|intro; apply He; now right|inversion Nl'; auto]. intros [->|K]; [congruence|]. apply Ha. right; now right. }
  intros i Hi. destruct i as [|i]; cbn [nth].
  { rewrite K2. destruct l; reflexivity. }
  cbn [length] in Hi |- *. revert i Hi. clear K1 K2.
  induction F as [|e t l ts Et F IH]; intros i Hi; [cbn in Hi; lia|].
  assert (He2 : e <> a) by (intros ->; apply Ha; now left). inversion Nl as [|? ? He Nl']; subst.
  assert (Ha' : ~ In a l) by (intro; apply Ha; now right).
  cbn [compose_all]. rewrite (T e t) by auto. unfold trans_map. destruct i as [|i]; cbn [nth].
  - destruct (Nat.eqb_spec e a); [contradiction|]. rewrite Nat.eqb_refl.
    (* now at a, go on with the rest *)
    destruct F as [|e' t' l ts Et' F]; [reflexivity|]. cbn [compose_all length].
    cbn [Nat.eqb nth].
    assert (He3 : e' <> a) by (intros ->; apply Ha'; now left).
    rewrite (T e' t') by auto. unfold trans_map. rewrite Nat.eqb_refl.
    inversion Nl' as [|? ? He' Nl'']; subst. assert (Ha'' : ~ In a l) by (intro; apply Ha'; now right).
    clear - F T Ha'' He' He3 Nl''. induction F as [|e2 t2 l ts Et2 F IH]; [reflexivity|]. cbn [compose_all].
    rewrite (T e2 t2) by (auto; intros ->; apply Ha''; now left). unfold trans_map.
    destruct (Nat.eqb_spec e' a); [contradiction|]. destruct (Nat.eqb_spec e' e2) as [->|]; [exfalso; apply He'; now left|].
    apply IH; [intro; apply He'; now right|inversion Nl''; auto|intro; apply Ha''; now right].
  - assert (Hx : In (nth i l 0) l) by (apply nth_In; cbn in Hi; lia).
    destruct (Nat.eqb_spec (nth i l 0) a) as [K|_]; [exfalso; rewrite K in Hx; contradiction|].
    destruct (Nat.eqb_spec (nth i l 0) e) as [K|_]; [exfalso; rewrite K in Hx; contradiction|].
    cbn [length] in Hi |- *. specialize (IH Ha' Nl' i ltac:(lia)). rewrite IH.
    destruct (Nat.eqb_spec (S (S i)) (S (length l))), (Nat.eqb_spec (S (S (S i))) (S (S (length l)))); try lia; reflexivity.
Qed.
