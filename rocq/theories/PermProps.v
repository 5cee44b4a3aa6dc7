(** Properties C17-C26 of cycles and permutations. *)
From Coq Require Import List Arith ZArith Bool Lia.
From Verif Require Import PidModel PermModel PermSpec PermProofs PermProofs2 PermProofs3 PermProofs4.
Import ListNotations.
Open Scope nat_scope.

(** C17 *)
Theorem C17_cycle_action : forall l c, cycle_from l = Some c -> is_cycle_map (cmap c) l.
Proof. exact cycle_from_map. Qed.
Print Assumptions C17_cycle_action.
Theorem C17_cycle_rejects : forall l, cycle_from l = None <-> (l = [] \/ ~ NoDup l).
Proof. exact cycle_from_none. Qed.
Print Assumptions C17_cycle_rejects.
Theorem C17_cycle_equality : forall l c m d, cycle_from l = Some c -> cycle_from m = Some d ->
  (c = d <-> forall x, cmap c x = cmap d x).
Proof.
  intros l c m d H1 H2. split; [intros ->; auto|]. apply ccan_ext; eapply cycle_from_ccan; eauto.
Qed.
Print Assumptions C17_cycle_equality.
Theorem C17_cycle_rotation : forall l k, k <= length l -> cycle_from (skipn k l ++ firstn k l) = cycle_from l.
Proof.
  intros l k Hk. destruct (cycle_from l) as [c|] eqn:E.
  - pose proof (cycle_from_inv _ _ E) as (N & Hn & _).
    destruct (cycle_from_some (skipn k l ++ firstn k l)) as [d Ed].
    { now apply NoDup_rot. }
    { intro K. apply Hn. rewrite <- (firstn_skipn k l). apply app_eq_nil in K as [-> ->]. reflexivity. }
    rewrite Ed. f_equal. symmetry. apply (proj2 (C17_cycle_equality _ _ _ _ E Ed)).
    apply (is_cycle_map_unique _ _ (skipn k l ++ firstn k l)); [|now apply cycle_from_map].
    pose proof (cycle_from_map _ _ E) as [P Q]. split; [now apply cycles_along_rot|]. intros x Hx. apply Q. now rewrite In_rot in Hx.
  - apply cycle_from_none in E. apply cycle_from_none. destruct E as [->|E].
    + left. now rewrite skipn_nil, firstn_nil.
    + right. now rewrite NoDup_rot.
Qed.
Print Assumptions C17_cycle_rotation.
Example C17_nontrivial : cycle_from [5; 2; 9] = Some [2; 9; 5] /\ cmap [2; 9; 5] 5 = 2.
Proof. split; reflexivity. Qed.

(** C18 *)
Theorem C18_product_is_composition : forall p q, built p -> built q ->
  exists r, pmul p q = Some r /\ normal r /\ forall x, pmap r x = pmap p (pmap q x).
Proof. intros p q Hp Hq. apply pmul_spec; now apply built_normal. Qed.
Print Assumptions C18_product_is_composition.
Example C18_nontrivial : built [[0; 5; 4; 6; 1; 2]] /\ built [[0; 1; 2; 3; 5]] /\
  pmul [[0; 5; 4; 6; 1; 2]] [[0; 1; 2; 3; 5]] = Some [[0; 2; 3; 4; 6; 1]].
Proof.
  split; [|split; [|vm_compute; reflexivity]].
  - apply (b_cycle [0; 5; 4; 6; 1; 2]). reflexivity.
  - apply (b_cycle [0; 1; 2; 3; 5]). reflexivity.
Qed.

(** C19 *)
Theorem C19_equality_extensional : forall p q, built p -> built q -> (p = q <-> forall x, pmap p x = pmap q x).
Proof. intros p q Hp Hq. split; [intros ->; auto|]. apply normal_ext; now apply built_normal. Qed.
Print Assumptions C19_equality_extensional.
(** The value returned by [swap] on two empty ranges is outside [built]: same map as the identity, yet not equal to
    it, and multiplying by it panics. *)
Theorem C19_empty_swap_refuted : exists p, pswap 1 0 0 3 3 = Some p /\ (forall x, pmap p x = pmap identity x) /\ p <> identity /\
  forall q, pmul q p = None.
Proof.
  exists []. split; [reflexivity|]. split; [intro x; now rewrite pmap_identity|]. split; [discriminate|]. apply pmul_nil_r.
Qed.
Print Assumptions C19_empty_swap_refuted.

(** C20 *)
Theorem C20_bijection_support : forall p, built p -> bijective (pmap p) /\
  exists u, unfixed p = Some u /\ NoDup u /\ forall x, In x u <-> pmap p x <> x.
Proof.
  intros p Hp. apply built_normal in Hp. split; [now apply pmap_bijective, normal_disj|].
  exists (concat p). split; [now apply unfixed_normal|]. split; [now apply normal_disj|]. intro x. now rewrite pmap_support.
Qed.
Print Assumptions C20_bijection_support.
(** A permutation given by lists of points acts along each of them; lists of length at least two must be disjoint. *)
Definition proper (ls : list (list nat)) := filter (fun l => 2 <=? length l) ls.
Lemma proper_cycles ls cs : Forall2 (fun l c => cycle_from l = Some c) ls cs ->
  Permutation.Permutation (concat (proper ls)) (concat cs).
Proof.
  induction 1 as [|l c ls cs E F IH]; [constructor|]. unfold proper. cbn [filter concat].
  destruct (cycle_from_inv _ _ E) as (_ & _ & [[L ->]|(L & k & K & -> & _)]).
  - rewrite L. exact IH.
  - rewrite (proj2 (Nat.leb_le 2 (length l))) by auto. cbn [concat]. apply Permutation.Permutation_app; [|exact IH].
    rewrite <- (firstn_skipn k l) at 1. apply Permutation.Permutation_app_comm.
Qed.
Theorem C20_from_disjoint_cycles : forall ls cs, omap cycle_from ls = Some cs ->
  (from_disjoint_cycles cs = None <-> ~ NoDup (concat (proper ls))) /\
  (forall p, from_disjoint_cycles cs = Some p -> built p /\
     (forall l, In l (proper ls) -> cycles_along (pmap p) l) /\
     (forall x, ~ In x (concat (proper ls)) -> pmap p x = x)).
Proof.
  intros ls cs E. pose proof (proj1 (omap_Forall2 _ _ _) E) as F.
  pose proof (proper_cycles ls cs F) as P.
  assert (C : Forall ccan cs).
  { clear - F. induction F; constructor; auto. eapply cycle_from_ccan; eauto. }
  split.
  - split.
    + intros H N. apply (Permutation.Permutation_NoDup P) in N. destruct (fdc_spec cs C N) as (p & Ep & _). congruence.
    + intro H. apply fdc_none. intro N. apply H. eapply Permutation.Permutation_NoDup; [|exact N]. now apply Permutation.Permutation_sym.
  - intros p Ep. split; [eapply b_disjoint; eauto|].
    assert (N : NoDup (concat cs)).
    { destruct (no_repeat [] (concat cs)) eqn:K; [now apply no_repeat_nil|].
      rewrite fdc_none in Ep; [discriminate|]. intro Q. apply no_repeat_nil in Q. congruence. }
    destruct (fdc_spec cs C N) as (q & Eq & Hq & M1 & M2). assert (p = q) by congruence. subst q. split.
    + intros l Hl. apply filter_In in Hl as [Hl L]. apply Nat.leb_le in L.
      assert (exists c, In c cs /\ cycle_from l = Some c) as (c & Hc & Ec).
      { clear - F Hl. induction F as [|a b la lb R F IH]; [contradiction|]. destruct Hl as [<-|Hl].
        - exists b. split; auto. now left.
        - destruct (IH Hl) as (c & A & B). exists c. split; auto. now right. }
      intros i Hi. pose proof (cycle_from_map _ _ Ec) as [Q _]. rewrite <- Q by auto. apply M1; auto.
      apply (cycle_from_In _ _ _ Ec L). now apply nth_In.
    + intros x Hx. apply M2. intro K. apply Hx. eapply Permutation.Permutation_in; [|exact K]. now apply Permutation.Permutation_sym.
Qed.
Print Assumptions C20_from_disjoint_cycles.
Example C20_nontrivial : from_disjoint_cycles [[4; 8; 5]; [1; 6]; []; [0; 2; 3]] = Some [[0; 2; 3]; [1; 6]; [4; 8; 5]]  /\
  from_disjoint_cycles [[0; 1; 2; 3; 5]; [4; 5]] = None.
Proof. split; reflexivity. Qed.

(** C21 *)
Theorem C21_inverse : forall p, built p -> exists r, pinverse p = Some r /\ built r  /\
  pmul p r = Some identity /\ pmul r p = Some identity /\ pinverse r = Some p.
Proof.
  intros p Hp. pose proof (built_normal p Hp) as N. destruct (pinverse_spec p N) as (r & Er & Nr & M1 & M2).
  exists r. split; auto. split; [eapply b_inverse; eauto|].
  destruct (pmul_spec p r N Nr) as (s & Es & Ns & Ms). destruct (pmul_spec r p Nr N) as (t & Et & Nt & Mt).
  destruct (pinverse_spec r Nr) as (u & Eu & Nu & U1 & U2).
  rewrite Es, Et, Eu. repeat split; f_equal; apply normal_ext; auto using normal_identity; intro x.
  - rewrite Ms, M2. now rewrite pmap_identity.
  - rewrite Mt, M1. now rewrite pmap_identity.
  - rewrite <- (M1 x) at 1. apply U1.
Qed.
Print Assumptions C21_inverse.
Theorem C21_group_laws : forall p q r, built p -> built q -> built r ->
  (exists pq qr s, pmul p q = Some pq /\ pmul q r = Some qr /\ pmul pq r = Some s /\ pmul p qr = Some s) /\
  pmul identity p = Some p /\ pmul p identity = Some p.
Proof.
  intros p q r Hp Hq Hr. apply built_normal in Hp, Hq, Hr. split; [|split].
  - destruct (pmul_spec p q) as (pq & E1 & N1 & M1); auto. destruct (pmul_spec q r) as (qr & E2 & N2 & M2); auto.
    destruct (pmul_spec pq r) as (s & E3 & N3 & M3); auto. destruct (pmul_spec p qr) as (t & E4 & N4 & M4); auto.
    exists pq, qr, s. repeat split; auto. rewrite E4. f_equal. apply normal_ext; auto. intro x. now rewrite M4, M3, M1, M2.
  - destruct (pmul_spec identity p normal_identity Hp) as (s & E & N & M). rewrite E. f_equal. apply normal_ext; auto.
    intro x. rewrite M. now rewrite pmap_identity.
  - destruct (pmul_spec p identity Hp normal_identity) as (s & E & N & M). rewrite E. f_equal. apply normal_ext; auto.
    intro x. rewrite M. now rewrite pmap_identity.
Qed.
Print Assumptions C21_group_laws.
Example C21_nontrivial : built [[0; 2; 3]; [1; 6]; [4; 8; 5]] /\
  pinverse [[0; 2; 3]; [1; 6]; [4; 8; 5]] = Some [[0; 3; 2]; [1; 6]; [4; 5; 8]].
Proof.
  split; [|vm_compute; reflexivity].
  apply (b_disjoint [[0; 2; 3]; [1; 6]; [4; 8; 5]] [[0; 2; 3]; [1; 6]; [4; 8; 5]]); reflexivity.
Qed.

(** C22: the generators are transpositions (or the identity alone), and their product is the permutation. *)
Theorem C22_generators : forall p, built p -> exists gens, in_terms_of_gens p = Some gens /\ pproduct gens = Some p /\
  Forall (fun g => built g /\ (g = identity \/ exists a b, a <> b /\ forall x, pmap g x = if x =? a then b else if x =? b then a else x)) gens.
Proof.
  intros p Hp. pose proof (built_normal p Hp) as N. destruct (gens_spec p N) as (gens & E & G & _ & P & _).
  exists gens. repeat split; auto. rewrite Forall_forall in *. intros g Hg. split; [eapply b_gen; eauto|].
  destruct (G g Hg) as [->|(a & b & Hab & Et)]; auto. right. exists a, b. split; auto.
  destruct (transposition_spec a b Hab) as (t & Et' & _ & M & _). assert (t = g) by congruence. subst t. exact M.
Qed.
Print Assumptions C22_generators.

(** C23 *)
Theorem C23_power_partial : forall p n, built p -> (0 <= n)%Z -> exists r, ppow p n = Some r /\ built r /\
  forall x, pmap r x = iter (Z.to_nat n) (pmap p) x.
Proof.
  intros p n Hp Hn. pose proof (built_normal p Hp) as N. destruct (ppow_nonneg p n N Hn) as (r & E & _ & M).
  exists r. repeat split; auto. eapply b_pow; eauto.
Qed.
Print Assumptions C23_power_partial.
(** Negative powers are all the identity. *)
Theorem C23_negative_power_is_identity : forall p n, built p -> (n < 0)%Z -> ppow p n = Some identity.
Proof. intros p n Hp. apply ppow_neg. now apply built_normal. Qed.
Print Assumptions C23_negative_power_is_identity.
Theorem C23_negative_power_refuted : exists p inv, built p /\ pinverse p = Some inv /\ ppow p (-1) <> Some inv.
Proof.
  exists [[0; 1; 2]], [[0; 2; 1]]. split; [apply (b_cycle [0; 1; 2]); reflexivity|]. split; [vm_compute; reflexivity|].
  vm_compute. discriminate.
Qed.
Print Assumptions C23_negative_power_refuted.

(** C24 *)
Theorem C24_action : forall T (v : list T) p, built p -> (forall x, pmap p x <> x -> x < length v) ->
  exists w, action v p = Some w /\ length w = length v /\ forall k, nth_error w (pmap p k) = nth_error v k.
Proof. intros T v p Hp. apply action_spec. now apply built_normal. Qed.
Print Assumptions C24_action.
Theorem C24_action_panics : forall T (v : list T) p x, built p -> pmap p x <> x -> length v <= x -> action v p = None.
Proof. intros T v p x Hp. apply action_panics. now apply built_normal. Qed.
Print Assumptions C24_action_panics.
Theorem C24_action_of_product : forall T (v : list T) p q, built p -> built q ->
  (forall x, pmap p x <> x -> x < length v) -> (forall x, pmap q x <> x -> x < length v) ->
  exists r u w, pmul p q = Some r /\ action v q = Some u /\ action u p = Some w /\ action v r = Some w.
Proof. intros T v p q Hp Hq. apply action_mul; now apply built_normal. Qed.
Print Assumptions C24_action_of_product.
Example C24_nontrivial : action [10; 11; 12; 13; 14; 15] [[0; 1; 2]; [3; 4]] = Some [12; 10; 11; 14; 13; 15].
Proof. vm_compute. reflexivity. Qed.

(** C25: two non-empty disjoint ranges, given in either order unless the second ends exactly where the first starts. *)
Theorem C25_swap_partial : forall a1 b1 a2 b2, a1 < b1 -> a2 < b2 -> b1 <= a2 -> forall fuel, b2 - a1 < fuel ->
  exists p, pswap fuel a1 b1 a2 b2 = Some p /\ built p /\ forall x, pmap p x = exchange a1 b1 a2 b2 x.
Proof.
  intros a1 b1 a2 b2 H1 H2 H3 fuel F. destruct (pswap_spec fuel a1 b1 a2 b2 H1 H2 H3 F) as (p & E & _ & M).
  exists p. repeat split; auto. apply (b_swap fuel a1 b1 a2 b2); auto.
Qed.
Print Assumptions C25_swap_partial.
Theorem C25_swap_reversed_partial : forall a1 b1 a2 b2, a1 < b1 -> a2 < b2 -> b2 < a1 -> forall fuel, S (b1 - a2) < fuel ->
  exists p, pswap fuel a1 b1 a2 b2 = Some p /\ built p /\ forall x, pmap p x = exchange a2 b2 a1 b1 x.
Proof.
  intros a1 b1 a2 b2 H1 H2 H3 fuel F. destruct (pswap_reversed fuel a1 b1 a2 b2 H1 H2 H3 F) as (p & E & _ & M).
  exists p. repeat split; auto. apply (b_swap fuel a1 b1 a2 b2); auto.
Qed.
Print Assumptions C25_swap_reversed_partial.
(** Adjacent ranges in the wrong order, and a single empty range, never produce a value. *)
Theorem C25_adjacent_reversed_refuted : forall fuel a1 b1 a2, a1 < b1 -> a2 < a1 -> pswap fuel a1 b1 a2 a1 = None.
Proof. exact pswap_adjacent_reversed_panics. Qed.
Print Assumptions C25_adjacent_reversed_refuted.
Theorem C25_one_empty_range_refuted : forall fuel a1 b1 a2 b2, a1 <= b1 -> a2 <= b2 ->
  (a1 = b1 /\ a2 < b2) \/ (a1 < b1 /\ a2 = b2) -> pswap fuel a1 b1 a2 b2 = None.
Proof. exact pswap_one_empty_panics. Qed.
Print Assumptions C25_one_empty_range_refuted.
Example C25_nontrivial : pswap 20 0 7 7 9 = Some [[0; 2; 4; 6; 8; 1; 3; 5; 7]].
Proof. vm_compute. reflexivity. Qed.

(** C26 *)
Theorem C26_const_product : forall p q, is_table p -> is_table q -> length p = length q ->
  exists r, cp_mul p q = Some r /\ is_table r /\ length r = length p /\ forall i, i < length p -> nth i r 0 = nth (nth i q 0) p 0.
Proof. exact cp_mul_spec. Qed.
Print Assumptions C26_const_product.
Theorem C26_vec_product : forall p q, is_table p -> is_table q ->
  exists r, vp_mul p q = Some r /\ is_table r /\ length r = Nat.max (length p) (length q) /\
    forall i, vp_eval r i = vp_eval p (vp_eval q i).
Proof. exact vp_mul_spec. Qed.
Print Assumptions C26_vec_product.
Theorem C26_const_order : forall p, is_table p -> exists n fuel0, 1 <= n /\ cp_pow p n = Some (cp_identity (length p)) /\
  (forall j, 1 <= j < n -> cp_pow p j <> Some (cp_identity (length p))) /\
  forall fuel, fuel0 <= fuel -> cp_order fuel p = Some n.
Proof. exact cp_order_spec. Qed.
Print Assumptions C26_const_order.
(** inverse returns a table of zeros; VecPermutation::order never returns on a non-empty table. *)
Theorem C26_inverse_refuted : exists p r, is_table p /\ cp_mul p (table_inverse p) = Some r /\ r <> cp_identity (length p).
Proof.
  exists [1; 0], [1; 1]. split; [|split; [reflexivity|discriminate]].
  split; [repeat constructor; cbn; intuition lia|]. cbn. intuition lia.
Qed.
Print Assumptions C26_inverse_refuted.
Theorem C26_vec_order_refuted : forall p fuel, is_table p -> p <> [] -> vp_order fuel p = None.
Proof. exact vp_order_diverges. Qed.
Print Assumptions C26_vec_order_refuted.
Example C26_nontrivial : is_table [1; 2; 0; 4; 3] /\ cp_order 10 [1; 2; 0; 4; 3] = Some 6.
Proof. split; [|reflexivity]. split; [repeat constructor; cbn; intuition lia|]. cbn. intuition lia. Qed.
