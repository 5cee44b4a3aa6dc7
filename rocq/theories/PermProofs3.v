(** Generators, inverse, powers, action on vectors, block swaps, tables. *)
From Coq Require Import List Arith ZArith Bool Lia ZifyBool ZifyNat Sorted Permutation.
From Verif Require Import PidModel PermModel PermSpec PermProofs PermProofs2.
Import ListNotations.
Open Scope nat_scope.

Lemma compose_all_app l m x : compose_all (l ++ m) x = compose_all m (compose_all l x).
Proof. revert x. induction l as [|p l IH]; intro x; cbn; auto. Qed.

(** A generator: the identity or a transposition, with its listed support. *)
Definition gen_ok (g : perm) : Prop := g = identity \/
  exists a b, a <> b /\ transposition a b = Some g.
Lemma gen_normal g : gen_ok g -> normal g.
Proof.
  intros [->|(a & b & H & E)]; [apply normal_identity|]. destruct (transposition_spec a b H) as (t & Et & Ht & _). congruence.
Qed.
Lemma gen_involution g x : gen_ok g -> pmap g (pmap g x) = x.
Proof.
  intros [->|(a & b & H & E)]; [now rewrite !pmap_identity|].
  destruct (transposition_spec a b H) as (t & Et & Ht & M & _). assert (t = g) by congruence. subst t.
  rewrite !M. unfold trans_map.
  destruct (Nat.eqb_spec x a) as [->|]; [|destruct (Nat.eqb_spec x b) as [->|]].
  - destruct (Nat.eqb_spec b a); [congruence|]. now rewrite Nat.eqb_refl.
  - now rewrite Nat.eqb_refl.
  - destruct (Nat.eqb_spec x a), (Nat.eqb_spec x b); congruence.
Qed.

Lemma cycle_gens_spec c : ccan c -> c <> [] -> exists ts, cycle_gens c = Some ts /\ Forall gen_ok ts /\
  Forall2 (fun e t => transposition (hd 0 c) e = Some t) (tl c) ts /\ forall x, compose_all ts x = cmap c x.
Proof.
  intros [->|(L & N & M)] H; [congruence|]. destruct c as [|a l]; [congruence|]. cbn [cycle_gens filter].
  rewrite Nat.eqb_refl. cbn [negb]. inversion N as [|? ? Ha Nl]; subst.
  assert (E : filter (fun e => negb (a =? e)) l = l).
  { clear - Ha. induction l as [|b l IH]; cbn; auto. destruct (Nat.eqb_spec a b) as [->|]; [exfalso; apply Ha; now left|].
    cbn. f_equal. apply IH. intro; apply Ha; now right. }
  rewrite E. destruct (omap_trans a l Ha) as (ts & Ets & F). exists ts. split; auto. split; [|split; auto].
  - clear - F Ha. induction F as [|e t l ts Et F IH]; constructor.
    + right. exists a, e. split; auto. intros ->. apply Ha. now left.
    + apply IH. intro; apply Ha; now right.
  - now apply compose_trans.
Qed.

Fixpoint seqmap (p : list cycle) (x : nat) : nat := match p with [] => x | c :: p => seqmap p (cmap c x) end.
Lemma seqmap_notin p x : NoDup (concat p) -> ~ In x (concat p) -> seqmap p x = x.
Proof.
  induction p as [|c p IH]; cbn [concat seqmap]; intros N H; auto. rewrite in_app_iff in H.
  rewrite cmap_notin by (try tauto; eapply NoDup_app_remove_r; eauto). apply IH; [eapply NoDup_app_remove_l; eauto|tauto].
Qed.
Lemma seqmap_pmap p x : NoDup (concat p) -> seqmap p x = pmap p x.
Proof.
  revert x. induction p as [|c p IH]; intros x N; [reflexivity|]. cbn [seqmap concat] in *. rewrite pmap_cons.
  assert (Nc : NoDup c) by (eapply NoDup_app_remove_r; eauto). assert (Np : NoDup (concat p)) by (eapply NoDup_app_remove_l; eauto).
  destruct (Nat.eqb_spec (cmap c x) x) as [E|E]; [rewrite E; auto|]. apply seqmap_notin; auto. intro K.
  assert (In x c). { destruct (in_dec Nat.eq_dec x c); auto. exfalso. apply E. now apply cmap_notin. }
  apply (NoDup_app_disj c (concat p) (cmap c x) N); auto. apply cycle_map_in; auto. now apply cmap_cycles.
Qed.

Lemma all_gens p : NoDup (concat p) -> Forall (fun c => ccan c /\ c <> []) p -> exists gss, omap cycle_gens p = Some gss /\
  Forall gen_ok (concat gss) /\ (forall x, compose_all (concat gss) x = seqmap p x) /\
  (forall x, In x (concat p) -> exists a b g, a <> b /\ (x = a \/ x = b) /\ In g (concat gss) /\ transposition a b = Some g) /\
  (forall a b g, In g (concat gss) -> a <> b -> transposition a b = Some g -> In a (concat p) /\ In b (concat p)).
Proof.
  induction p as [|c p IH]; intros N F; cbn [omap].
  - exists []. repeat split; auto; try constructor; intros; try contradiction.
  - inversion F as [|? ? [Cc Hc] F']; subst. destruct (cycle_gens_spec c Cc Hc) as (ts & E & G & F2 & M). rewrite E. cbn [obind].
    cbn [concat] in N. destruct IH as (gss & Eg & Gg & Mg & Sg & Tg); auto; [eapply NoDup_app_remove_l; eauto|].
    rewrite Eg. cbn [obind]. exists (ts :: gss). cbn [concat seqmap]. split; auto. split; [now apply Forall_app|]. split; [|split].
    + intro x. rewrite compose_all_app, M. apply Mg.
    + intros x Hx. apply in_app_or in Hx as [Hx|Hx].
      * destruct Cc as [->|(L & Nc & _)]; [contradiction|]. destruct c as [|a [|b l]]; cbn in L; try lia. cbn [hd tl] in F2.
        inversion Nc as [|? ? Ha _]; subst.
        assert (K : forall y, In y (b :: l) -> exists g, In g ts /\ transposition a y = Some g).
        { clear - F2. intros y Hy. induction F2 as [|e t m ts Et F IH]; [contradiction|]. destruct Hy as [->|Hy].
          - exists t. split; auto. now left.
          - destruct (IH Hy) as (g & Hg & Eg). exists g. split; auto. now right. }
        destruct Hx as [<-|Hx].
        -- destruct (K b (or_introl eq_refl)) as (g & Hg & Eg'). exists a, b, g. split; [intros ->; apply Ha; now left|].
           split; auto. split; auto. apply in_or_app; now left.
        -- destruct (K x Hx) as (g & Hg & Eg'). exists a, x, g. split; [intros ->; contradiction|].
           split; auto. split; auto. apply in_or_app; now left.
      * destruct (Sg x Hx) as (a & b & g & A & B & C & D). exists a, b, g. repeat split; auto. apply in_or_app; now right.
    + intros a b g Hg Hab Et. apply in_app_or in Hg as [Hg|Hg].
      * assert (exists e, In e (tl c) /\ hd 0 c <> e /\ transposition (hd 0 c) e = Some g) as (e & He & Hne & Ee).
        { assert (Hd : ~ In (hd 0 c) (tl c)).
          { destruct c as [|y c]; [congruence|]. apply ccan_NoDup in Cc. inversion Cc; auto. }
          clear - F2 Hg Hd. revert F2 Hg Hd. generalize (hd 0 c), (tl c). intros h m0 F2 Hg Hd. induction F2 as [|e t m ts Et F IH]; [contradiction|]. destruct Hg as [->|Hg].
          - exists e. split; [now left|]. split; auto. intros ->. apply Hd. now left.
          - destruct IH as (e' & A & B & C); auto; [intro; apply Hd; now right|]. exists e'. split; [now right|auto]. }
        destruct (transposition_spec a b Hab) as (t1 & E1 & _ & M1 & _). destruct (transposition_spec _ _ Hne) as (t2 & E2 & _ & M2 & _).
        assert (t1 = g) by congruence. assert (t2 = g) by congruence. subst t1 t2.
        assert (Q : forall x, trans_map a b x <> x -> In x (c)).
        { intros x K. rewrite <- M1, M2 in K. unfold trans_map in K.
          destruct (Nat.eqb_spec x (hd 0 c)) as [Ex|]; [rewrite Ex|destruct (Nat.eqb_spec x e) as [Ex|]; [rewrite Ex|congruence]].
          - destruct c; [congruence|now left].
          - destruct c; [contradiction|now right]. }
        split; apply in_or_app; left; apply Q; unfold trans_map; rewrite Nat.eqb_refl; auto. destruct (Nat.eqb_spec b a); auto. 
      * destruct (Tg a b g Hg Hab Et). split; apply in_or_app; now right.
Qed.

Lemma normal_ne p : normal p -> p <> identity -> Forall (fun c => ccan c /\ c <> []) p.
Proof.
  intros H Hn. pose proof (normal_ccan p H) as F. destruct H as [->|(_ & F' & _)]; [exfalso; now apply Hn|].
  rewrite Forall_forall in *. intros c Hc. split; auto. destruct (F' c Hc) as [L _]. destruct c; [cbn in L; lia|discriminate].
Qed.

Theorem gens_spec p : normal p -> exists gens, in_terms_of_gens p = Some gens /\ Forall gen_ok gens /\
  (forall x, compose_all gens x = pmap p x) /\ pproduct gens = Some p /\
  (forall x, In x (concat p) -> exists a b g, a <> b /\ (x = a \/ x = b) /\ In g gens /\ transposition a b = Some g) /\
  (forall a b g, In g gens -> a <> b -> transposition a b = Some g -> In a (concat p) /\ In b (concat p)).
Proof.
  intro H. unfold in_terms_of_gens. destruct (perm_eq_dec p identity) as [->|Hn].
  - exists [identity]. split; auto. split; [constructor; [now left|constructor]|]. split; [intro x; cbn [compose_all]; reflexivity|]. split; [reflexivity|].
    split; [intros x []|]. intros a b g [<-|[]] Hab Et. exfalso.
    destruct (transposition_spec a b Hab) as (t & E & _ & M & _). assert (t = identity) by congruence. subst t.
    specialize (M a). rewrite pmap_identity in M. unfold trans_map in M. rewrite Nat.eqb_refl in M. congruence.
  - destruct (all_gens p (normal_disj p H) (normal_ne p H Hn)) as (gss & E & G & M & Sg & Tg). rewrite E. cbn [obind].
    destruct (pproduct_spec (concat gss)) as (q & Eq & Hq & Mq).
    { eapply Forall_impl; [|exact G]. apply gen_normal. }
    rewrite Eq. cbn [obind].
    assert (p = q). { apply normal_ext; auto. intro x. rewrite Mq, M. symmetry. apply seqmap_pmap. now apply normal_disj. }
    subst q. destruct (perm_eq_dec p p); [|congruence]. exists (concat gss). split; [reflexivity|]. split; [exact G|]. split; [|split; auto].
    intro x. rewrite M. apply seqmap_pmap. now apply normal_disj.
Qed.

Lemma compose_rev gens x : Forall gen_ok gens -> compose_all (rev gens) (compose_all gens x) = x.
Proof.
  revert x. induction gens as [|g gens IH]; intros x F; [reflexivity|]. inversion F; subst. cbn [compose_all rev].
  rewrite compose_all_app, IH by auto. cbn. now apply gen_involution.
Qed.

Theorem pinverse_spec p : normal p -> exists r, pinverse p = Some r /\ normal r /\
  (forall x, pmap r (pmap p x) = x) /\ (forall x, pmap p (pmap r x) = x).
Proof.
  intro H. unfold pinverse. destruct (gens_spec p H) as (gens & E & G & M & _). rewrite E. cbn [obind].
  destruct (pproduct_spec (rev gens)) as (r & Er & Hr & Mr).
  { apply Forall_rev. eapply Forall_impl; [|exact G]. apply gen_normal. }
  exists r. split; auto. split; auto.
  assert (K : forall x, pmap r (pmap p x) = x) by (intro x; rewrite Mr, <- M; now apply compose_rev).
  split; auto. intro x. destruct (pmap_bijective p (normal_disj p H)) as [_ S]. destruct (S x) as [y <-]. now rewrite K.
Qed.

Lemma compose_repeat p n x : compose_all (repeat p n) x = iter n (pmap p) x.
Proof.
  revert x. induction n as [|n IH]; intro x; [reflexivity|]. cbn [repeat compose_all]. rewrite IH.
  clear. revert x. induction n as [|n IH]; intro x; [reflexivity|]. cbn [iter]. now rewrite IH.
Qed.
Theorem ppow_nonneg p n : normal p -> (0 <= n)%Z -> exists r, ppow p n = Some r /\ normal r /\
  forall x, pmap r x = iter (Z.to_nat n) (pmap p) x.
Proof.
  intros H Hn. unfold ppow. destruct (Z.eqb_spec n 0) as [->|Hn0].
  - exists identity. split; auto. split; [apply normal_identity|]. intro x. apply pmap_identity.
  - rewrite (proj2 (Z.ltb_lt 0 n)) by lia. destruct (pproduct_spec (repeat p (Z.to_nat n))) as (r & E & Hr & M).
    { apply Forall_forall. intros q Hq. apply repeat_spec in Hq. now subst. }
    exists r. split; auto. split; auto. intro x. now rewrite M, compose_repeat.
Qed.
Theorem ppow_neg p n : normal p -> (n < 0)%Z -> ppow p n = Some identity.
Proof.
  intros H Hn. unfold ppow. destruct (Z.eqb_spec n 0); [lia|]. rewrite (proj2 (Z.ltb_ge 0 n)) by lia.
  destruct (pinverse_spec p H) as (r & E & _). rewrite E. cbn [obind].
  replace (Z.to_nat n) with 0 by lia. reflexivity.
Qed.

Lemma nth_error_ext {T} (v w : list T) : (forall i, nth_error v i = nth_error w i) -> v = w.
Proof.
  revert w. induction v as [|x v IH]; intros [|y w] H; auto.
  - specialize (H 0). discriminate.
  - specialize (H 0). discriminate.
  - pose proof (H 0) as E. cbn in E. injection E as ->. f_equal. apply IH. intro i. exact (H (S i)).
Qed.

(** ** Action. *)
Definition upd {T} (l : list T) k z := firstn k l ++ z :: skipn (S k) l.
Lemma upd_length {T} (l : list T) k z : k < length l -> length (upd l k z) = length l.
Proof. intro H. unfold upd. rewrite app_length. cbn [length]. rewrite firstn_length_le, skipn_length; lia. Qed.
Lemma upd_nth {T} (l : list T) k z i : k < length l -> nth_error (upd l k z) i = if i =? k then Some z else nth_error l i.
Proof.
  intro H. unfold upd. destruct (Nat.eqb_spec i k) as [->|Hi].
  - rewrite nth_error_app2; rewrite firstn_length_le by lia; auto. now rewrite Nat.sub_diag.
  - destruct (Nat.lt_ge_cases i k) as [L|L].
    + rewrite nth_error_app1 by (rewrite firstn_length_le; lia).
      rewrite <- (firstn_skipn k l) at 2. rewrite nth_error_app1; auto. rewrite firstn_length_le; lia.
    + rewrite nth_error_app2; rewrite firstn_length_le by lia; auto.
      replace (i - k) with (S (i - S k)) by lia. cbn [nth_error].
      rewrite <- (firstn_skipn (S k) l) at 2. rewrite nth_error_app2; rewrite firstn_length_le by lia; [reflexivity|lia].
Qed.
Lemma vswap_spec {T} (v : list T) i j : i <> j -> i < length v -> j < length v ->
  exists w, vswap v i j = Some w /\ length w = length v /\ forall k, nth_error w (trans_map i j k) = nth_error v k.
Proof.
  intros Hij Hi Hj. unfold vswap.
  destruct (nth_error v i) as [x|] eqn:Ex; [|apply nth_error_None in Ex; lia].
  destruct (nth_error v j) as [y|] eqn:Ey; [|apply nth_error_None in Ey; lia]. cbn [obind].
  change (fun (l : list T) k z => firstn k l ++ z :: skipn (S k) l) with (@upd T).
  exists (upd (upd v i y) j x). split; [reflexivity|]. split.
  - rewrite !upd_length; auto. rewrite upd_length; auto.
  - intro k. rewrite !upd_nth by (auto; rewrite upd_length; auto). unfold trans_map.
    destruct (Nat.eqb_spec k i) as [->|Hki]; [now rewrite Nat.eqb_refl|].
    destruct (Nat.eqb_spec k j) as [->|Hkj].
    + destruct (Nat.eqb_spec i j); [congruence|]. now rewrite Nat.eqb_refl.
    + destruct (Nat.eqb_spec k j); [congruence|]. destruct (Nat.eqb_spec k i); [congruence|auto].
Qed.
Lemma vswap_none {T} (v : list T) i j : length v <= i \/ length v <= j -> vswap v i j = None.
Proof.
  intro H. unfold vswap. destruct (nth_error v i) eqn:E; auto. destruct (nth_error v j) eqn:E'; auto.
  exfalso. destruct H as [H|H]; apply nth_error_None in H; congruence.
Qed.

(** The indices used by a generator are below n. *)
Definition gen_below (n : nat) (g : perm) : Prop := forall a b, a <> b -> transposition a b = Some g -> a < n /\ b < n.
Lemma trans_not_id a b g : a <> b -> transposition a b = Some g -> g <> identity.
Proof.
  intros H E K. subst g. destruct (transposition_spec a b H) as (t & Et & _ & M & _). assert (t = identity) by congruence. subst t.
  specialize (M a). rewrite pmap_identity in M. unfold trans_map in M. rewrite Nat.eqb_refl in M. congruence.
Qed.
Lemma gen_action_spec {T} (v : list T) g : gen_ok g -> gen_below (length v) g ->
  exists w, gen_action v g = Some w /\ length w = length v /\ forall k, nth_error w (pmap g k) = nth_error v k.
Proof.
  intros G B. unfold gen_action. destruct (perm_eq_dec g identity) as [->|Hn].
  - exists v. repeat split; auto. intro k. now rewrite pmap_identity.
  - destruct G as [?|(a & b & Hab & E)]; [contradiction|].
    destruct (transposition_spec a b Hab) as (t & Et & _ & M & U). assert (t = g) by congruence. subst t.
    rewrite U. cbn [obind]. destruct (B a b Hab E) as [La Lb].
    assert (K : forall k, trans_map b a k = trans_map a b k).
    { intro k. unfold trans_map. destruct (Nat.eqb_spec k a), (Nat.eqb_spec k b); congruence. }
    destruct (a <? b).
    + destruct (vswap_spec v a b) as (w & Ew & Lw & Nw); auto. exists w. repeat split; auto. intro k. now rewrite M.
    + destruct (vswap_spec v b a) as (w & Ew & Lw & Nw); auto. exists w. repeat split; auto. intro k. rewrite M, <- K. apply Nw.
Qed.
Lemma gen_action_length {T} (v w : list T) g : gen_ok g -> gen_action v g = Some w -> length w = length v /\ gen_below (length v) g.
Proof.
  intros G E. assert (B : gen_below (length v) g).
  { intros a b Hab Et. destruct (Nat.lt_ge_cases a (length v)) as [La|La], (Nat.lt_ge_cases b (length v)) as [Lb|Lb]; auto.
    all: exfalso; unfold gen_action in E; pose proof (trans_not_id a b g Hab Et); destruct (perm_eq_dec g identity); [contradiction|];
      destruct (transposition_spec a b Hab) as (t & Et' & _ & M & U); assert (t = g) by congruence; subst t; rewrite U in E; cbn [obind] in E;
      destruct (a <? b); rewrite vswap_none in E by lia; discriminate. }
  split; auto. destruct (gen_action_spec v g G B) as (w' & E' & L & _). congruence.
Qed.
Lemma fold_none {T} (gens : list perm) : fold_left (fun acc g => do w <- acc; gen_action w g) gens (@None (list T)) = None.
Proof. induction gens; cbn; auto. Qed.
Lemma fold_action_spec {T} (gens : list perm) (v : list T) : Forall gen_ok gens -> Forall (gen_below (length v)) gens ->
  exists w, fold_left (fun acc g => do w <- acc; gen_action w g) gens (Some v) = Some w /\ length w = length v /\
   forall k, nth_error w (compose_all gens k) = nth_error v k.
Proof.
  revert v. induction gens as [|g gens IH]; intros v G B; cbn [fold_left compose_all]; [exists v; auto|].
  inversion G; subst. inversion B; subst. cbn [obind]. destruct (gen_action_spec v g) as (w & E & L & N); auto. rewrite E.
  destruct (IH w) as (w' & E' & L' & N'); auto; [now rewrite L|]. exists w'. split; auto. split; [lia|].
  intro k. rewrite N'. apply N.
Qed.
Lemma fold_action_inv {T} (gens : list perm) (v w : list T) : Forall gen_ok gens ->
  fold_left (fun acc g => do w <- acc; gen_action w g) gens (Some v) = Some w -> Forall (gen_below (length v)) gens.
Proof.
  revert v. induction gens as [|g gens IH]; intros v G E; [constructor|]. inversion G; subst. cbn [fold_left obind] in E.
  destruct (gen_action v g) as [u|] eqn:Eu; [|now rewrite fold_none in E].
  destruct (gen_action_length v u g) as [L B]; auto. constructor; auto. rewrite <- L. eauto.
Qed.

Theorem action_spec {T} (v : list T) p : normal p -> (forall x, pmap p x <> x -> x < length v) ->
  exists w, action v p = Some w /\ length w = length v /\ forall k, nth_error w (pmap p k) = nth_error v k.
Proof.
  intros H B. unfold action. destruct (gens_spec p H) as (gens & E & G & M & _ & _ & T2). rewrite E. cbn [obind].
  destruct (fold_action_spec gens v G) as (w & Ew & L & N).
  - apply Forall_forall. intros g Hg a b Hab Et. destruct (T2 a b g Hg Hab Et). split; apply B; apply pmap_support; auto.
  - exists w. repeat split; auto. intro k. now rewrite <- M.
Qed.
Theorem action_panics {T} (v : list T) p x : normal p -> pmap p x <> x -> length v <= x -> action v p = None.
Proof.
  intros H Hx L. unfold action. destruct (gens_spec p H) as (gens & E & G & M & _ & T1 & _). rewrite E. cbn [obind].
  destruct (fold_left _ gens (Some v)) as [w|] eqn:Ew; auto. exfalso.
  apply fold_action_inv in Ew; auto. apply pmap_support in Hx; auto. destruct (T1 x Hx) as (a & b & g & Hab & Hx' & Hg & Et).
  rewrite Forall_forall in Ew. destruct (Ew g Hg a b Hab Et). lia.
Qed.
Theorem action_mul {T} (v : list T) p q : normal p -> normal q ->
  (forall x, pmap p x <> x -> x < length v) -> (forall x, pmap q x <> x -> x < length v) ->
  exists r u w, pmul p q = Some r /\ action v q = Some u /\ action u p = Some w /\ action v r = Some w.
Proof.
  intros Hp Hq Bp Bq. destruct (pmul_spec p q Hp Hq) as (r & Er & Hr & Mr).
  destruct (action_spec v q Hq Bq) as (u & Eu & Lu & Nu).
  destruct (action_spec u p Hp) as (w & Ew & Lw & Nw). { rewrite Lu. auto. }
  destruct (action_spec v r Hr) as (w' & Ew' & Lw' & Nw').
  { intros x Hx. rewrite Mr in Hx. destruct (Nat.eq_dec (pmap q x) x) as [E|E]; [|now apply Bq]. rewrite E in Hx. now apply Bp. }
  exists r, u, w. repeat split; auto. rewrite Ew'. f_equal.
  apply nth_error_ext. intro i. destruct (pmap_bijective r (normal_disj r Hr)) as [_ S]. destruct (S i) as [k <-].
  rewrite Nw', Mr, Nw, Nu. reflexivity.
Qed.
