(** Sums with the derived partial order: they stop on every cube of dimension at least two. *)
From Coq Require Import List Arith ZArith NArith Bool Lia ZifyBool ZifyNat ZifyN Permutation Sorted.
From Verif Require Import PidModel LinModel LinSpec LinProofs LinProofs2 MatModel MatSpec GraphModel GraphSpec CubeModel CubeSpec CubeProofs CubeProofs4 CubeProofs5 CubePartialModel.
Import ListNotations.
Open Scope nat_scope.

(** With a total comparison the two models of addition agree. *)
Section Agree.
  Context {B : Type}.
  Variable cmp : B -> B -> comparison.
  Hypothesis Hcmp : total_order cmp.
  Let pc (a b : B) := Some (cmp a b).
  Lemma psort_sort l : length l <= 2 -> psort pc l = Some (sort_by (cur_cmp cmp) l).
  Proof.
    destruct l as [|a [|b [|d l]]]; cbn [length]; intros H; [reflexivity..| |lia]. cbn [psort obind pc]. f_equal. cbn [sort_by fold_right insert_by]. unfold cur_cmp.
    rewrite (cmp_opp cmp Hcmp (snd (fst a)) (snd (fst b))). destruct (cmp (snd (fst a)) (snd (fst b))); reflexivity.
  Qed.
  Lemma beqb_sym x y : beqb cmp x y = beqb cmp y x.
  Proof. unfold beqb. rewrite (cmp_opp cmp Hcmp x y). destruct (cmp x y); reflexivity. Qed.
  Lemma beqb_refl x : beqb cmp x x = true.
  Proof. unfold beqb. now rewrite (proj2 (proj1 Hcmp x x) eq_refl). Qed.
  Lemma take_le1 {A} (t : list (Z * A)) : length (take_cursor t) <= 1.
  Proof. destruct t; cbn; lia. Qed.
  Lemma psum_sum k : forall l, length l <= 2 -> psum pc (beqb cmp) k l = sum_loop ideal cmp k l.
  Proof.
    induction k as [|k IH]; intros l Hl; [reflexivity|]. rewrite (sum_loop_S ideal cmp). destruct l as [|[x t] [|[y u] [|d l]]]; [reflexivity| | |cbn in Hl; lia].
    - cbn [psum leading fst snd]. rewrite beqb_refl. cbn [firstn skipn tl sum_coeffs obind step_next fst snd leading]. rewrite beqb_refl. cbn [firstn skipn flat_map]. rewrite app_nil_r.
      match goal with |- context [merge_spec ?f ?i ?j] => replace (merge_spec f i j) with (take_cursor t) by (destruct t; reflexivity) end. rewrite IH by (eapply Nat.le_trans; [apply take_le1|lia]).
      destruct x as [z b]. reflexivity.
    - cbn [psum leading fst snd step_next]. rewrite beqb_refl. destruct (beqb cmp (snd y) (snd x)) eqn:EB.
      + cbn [firstn skipn tl sum_coeffs obind]. unfold ideal at 1. cbn [obind fst snd flat_map]. rewrite app_nil_r.
        assert (LE : length (take_cursor t ++ take_cursor u) <= 2) by (rewrite app_length; pose proof (take_le1 t); pose proof (take_le1 u); lia).
        rewrite psort_sort by exact LE. cbn [obind]. set (l' := sort_by _ _). assert (LL : length l' <= 2) by (unfold l'; rewrite <- (Permutation_length (sort_by_perm (cur_cmp cmp) _)); exact LE).
        match goal with |- context [merge_spec ?f ?i ?j] => replace (merge_spec f i j) with l' by (change j with l'; clearbody l'; destruct l' as [|? [|? [|? ?]]]; try reflexivity; cbn in LL; lia) end. now rewrite IH.
      + cbn [firstn skipn tl sum_coeffs obind fst snd flat_map]. rewrite app_nil_r.
        assert (E : match t with [] => Some [(y, u)] | z :: t' => do c <- pc (snd z) (snd y); Some (match c with Lt => [(z, t'); (y, u)] | _ => [(y, u); (z, t')] end) end = Some (merge_spec (cur_cmp cmp) [(y, u)] (sort_by (cur_cmp cmp) (take_cursor t)))).
        { destruct t as [|z t']; [reflexivity|]. cbn. unfold cur_cmp. cbn [fst snd]. destruct (cmp (snd z) (snd y)); reflexivity. }
        rewrite E. cbn [obind]. rewrite IH; [destruct x; reflexivity|].
        rewrite <- (Permutation_length (merge_spec_perm (cur_cmp cmp) _ _)), app_length, <- (Permutation_length (sort_by_perm (cur_cmp cmp) _)). pose proof (take_le1 t). cbn. lia.
  Qed.
  Theorem padd_vadd v w : padd pc (beqb cmp) v w = vadd ideal cmp v w.
  Proof.
    unfold padd, vadd, vsum. cbn [flat_map concat]. rewrite !app_nil_r, app_length.
    assert (LE : length (take_cursor v ++ take_cursor w) <= 2) by (rewrite app_length; pose proof (take_le1 v); pose proof (take_le1 w); lia).
    rewrite psort_sort by exact LE. cbn [obind]. apply psum_sum. rewrite <- (Permutation_length (sort_by_perm (cur_cmp cmp) _)). exact LE.
  Qed.
End Agree.

(** Sorting leaves a part below all the rest alone. *)
Lemma f_sort_prefix P l : pd (P ++ l) -> listed P -> (forall p q, In p P -> In q l -> low p < low q) -> f_sort (P ++ l) = P ++ f_sort l.
Proof.
  induction P as [|p P IH]; intros H HL HP; [reflexivity|]. cbn [app] in *. apply pd_cons in H. destruct H as [H1 H2]. unfold listed in HL. inversion HL as [|? ? L1 L2]; subst.
  change (f_sort (p :: P ++ l)) with (f_insert p (f_sort (P ++ l))). rewrite IH; [|exact H2|exact L1|intros; apply HP; [now right|assumption]].
  destruct (P ++ f_sort l) as [|q r] eqn:E; [reflexivity|]. cbn [f_insert].
  assert (Hq : In q (P ++ l)). { assert (K : In q (P ++ f_sort l)) by (rewrite E; now left). apply in_app_or in K. apply in_or_app. destruct K as [K|K]; [now left|right; now rewrite <- (f_sort_perm l)]. }
  assert (Lq : low p < low q). { apply in_app_or in Hq. destruct Hq as [K|K]; [rewrite Forall_forall in L2; now apply L2|apply HP; [now left|exact K]]. }
  rewrite Forall_forall in H1. rewrite f_lt_disjoint by (apply disjoint_sym, H1, Hq). rewrite (proj2 (Nat.ltb_ge _ _)) by lia. reflexivity.
Qed.
Lemma cpc_prefix P a b : cube_partial_cmp (P ++ a) (P ++ b) = cube_partial_cmp a b.
Proof. induction P as [|p P IH]; [reflexivity|]. cbn. unfold f_partial_cmp at 1. now rewrite f_eqb_refl. Qed.
Lemma listed_app P l : listed (P ++ l) -> listed P /\ listed l /\ forall p q, In p P -> In q l -> low p < low q.
Proof.
  unfold listed. induction P as [|p P IH]; cbn [app]; intros H; [repeat split; [constructor|exact H|intros ? ? []]|].
  inversion H as [|? ? H1 H2]; subst. destruct (IH H1) as (A & B & C). rewrite Forall_app in H2. destruct H2 as [F1 F2]. rewrite Forall_forall in F2. repeat split; [now constructor|exact B|]. intros p' q [<-|K] Hq; [now apply F2|now apply C].
Qed.

(** The first edge. *)
Lemma first_step P x y l s : pd (P ++ FEdge x y :: l) -> listed (P ++ FEdge x y :: l) -> x < y -> s = 1%Z \/ s = (-1)%Z ->
  (do nb1 <- vneg ideal (vfrom (f_sort (P ++ FVertex x :: l))); do d <- cadd (vfrom (f_sort (P ++ FVertex y :: l))) nb1; vmul ideal d s) = Some [((- s)%Z, P ++ FVertex x :: l); (s, P ++ f_sort (FVertex y :: l))] /\ cube_partial_cmp (P ++ FVertex x :: l) (P ++ f_sort (FVertex y :: l)) = Some Lt.
Proof.
  intros HD HL Hxy Hs. destruct (listed_app _ _ HL) as (LP & LE & LPl). inversion LE as [|? ? L1 L2]; subst. cbn [low] in L2.
  assert (PDx : forall z, z = x \/ z = y -> pd (P ++ FVertex z :: l)).
  { intros z Hz. apply (pd_perm (FVertex z :: P ++ l)); [apply Permutation_middle|]. apply (pd_perm _ (FEdge x y :: P ++ l)) in HD; [|symmetry; apply Permutation_middle]. apply pd_cons in HD. apply pd_cons. split; [|apply HD].
    eapply Forall_impl; [|apply HD]. intros f D v [<-|[]]. apply D. cbn. destruct Hz as [-> | ->]; auto. }
  assert (Bel : forall z, x <= z -> forall p q, In p P -> In q (FVertex z :: l) -> low p < low q). { intros z Hz p q Hp [<-|Hq]; [|apply LPl; [exact Hp|now right]]. specialize (LPl p (FEdge x y) Hp (or_introl eq_refl)). cbn [low] in *. lia. }
  assert (E1 : f_sort (P ++ FVertex x :: l) = P ++ FVertex x :: l).
  { rewrite f_sort_prefix; [|now apply PDx; left|exact LP|apply Bel; lia]. f_equal. apply f_sort_id.
    - pose proof (PDx x (or_introl eq_refl)) as K. apply (pd_perm _ (FVertex x :: P ++ l)) in K; [|symmetry; apply Permutation_middle]. clear -K. apply pd_cons in K. apply pd_cons. rewrite Forall_app in K. destruct K as [[_ K] K2]. split; [exact K|]. clear -K2. induction P; [exact K2|]. cbn in K2. apply pd_cons in K2. now apply IHP.
    - constructor; [exact L1|exact L2]. }
  assert (E2 : f_sort (P ++ FVertex y :: l) = P ++ f_sort (FVertex y :: l)) by (apply f_sort_prefix; [now apply PDx; right|exact LP|apply Bel; lia]).
  assert (CL : cube_partial_cmp (P ++ FVertex x :: l) (P ++ f_sort (FVertex y :: l)) = Some Lt).
  { rewrite cpc_prefix. pose proof (f_sort_perm (FVertex y :: l)) as FP. destruct (f_sort (FVertex y :: l)) as [|h r]; [apply Permutation_nil in FP; discriminate|].
    assert (Hh : In h (FVertex y :: l)) by (rewrite <- FP; now left). cbn [cube_partial_cmp].
    assert (D : disjoint (FVertex x) h /\ x < low h). { destruct Hh as [<-|Hh]; [split; [intros v [<-|[]] [K|[]]; lia|exact Hxy]|]. rewrite Forall_forall in L2. split; [|now apply L2].
      pose proof (PDx x (or_introl eq_refl)) as K. apply (pd_perm _ (FVertex x :: P ++ l)) in K; [|symmetry; apply Permutation_middle]. apply pd_cons in K. destruct K as [K _]. rewrite Forall_forall in K. apply K, in_or_app. now right. }
    rewrite (pcmp_disjoint _ _ (proj1 D)). cbn [low]. now rewrite (proj2 (Nat.compare_lt_iff x (low h))) by apply D. }
  split; [|exact CL]. rewrite E1, E2. set (b1 := P ++ FVertex x :: l) in *. set (b2 := P ++ f_sort (FVertex y :: l)) in *.
  assert (EA : cadd [(1%Z, b2)] [((-1)%Z, b1)] = Some [((-1)%Z, b1); (1%Z, b2)]).
  { unfold cadd, padd. cbn [take_cursor app psort fst snd]. rewrite CL. cbn [obind length Nat.add psum].
    assert (NE : cube_eqb b2 b1 = false). { apply not_true_iff_false. intros K. assert (F : forall a b, cube_eqb a b = true -> a = b). { clear. induction a as [|h a IH]; intros [|k b]; cbn; try discriminate; [reflexivity|]. intros H. apply andb_true_iff in H. destruct H as [H1 H2]. apply f_eqb_eq in H1. f_equal; auto. }
      apply F in K. rewrite K in CL. clear -CL. assert (R : forall a, cube_partial_cmp a a = Some Eq). { induction a as [|h a IH]; [reflexivity|]. cbn. unfold f_partial_cmp. now rewrite f_eqb_refl. } rewrite R in CL. discriminate. }
    cbn [snd]. rewrite NE. reflexivity. }
  change (vneg ideal (vfrom b1)) with (Some [((-1)%Z, b1)]). cbn [obind]. change (vfrom b2) with [(1%Z, b2)]. rewrite EA. cbn [obind]. destruct Hs as [-> | ->]; reflexivity.
Qed.
Lemma step_unfold v s P x y l d : (do nb1 <- vneg ideal (vfrom (f_sort (P ++ FVertex x :: l))); do d <- cadd (vfrom (f_sort (P ++ FVertex y :: l))) nb1; vmul ideal d s) = Some d ->
  boundary_step_p (v, s) P x y l = do u <- cadd v d; Some (u, (s * -1)%Z).
Proof.
  unfold boundary_step_p. cbn [fst snd]. destruct (vneg _ _) as [n|]; cbn [obind]; [|discriminate]. destruct (cadd _ n) as [e|]; cbn [obind]; [|discriminate]. intros ->. reflexivity.
Qed.
Lemma loop_vertices P l : forall st pre, Forall (fun f => is_edge f = false) P -> boundary_loop_p st pre (P ++ l) = boundary_loop_p st (pre ++ P) l.
Proof.
  induction P as [|[x y|x] P IH]; intros st pre H; [now rewrite app_nil_r|inversion H; discriminate|]. inversion H; subst. cbn [app boundary_loop_p]. rewrite IH by assumption. now rewrite <- app_assoc.
Qed.
Lemma split_edge l : dimension l <> 0 -> exists P x y Q, l = P ++ FEdge x y :: Q /\ Forall (fun f => is_edge f = false) P.
Proof.
  induction l as [|[x y|x] l IH]; intros H; [exfalso; now apply H|exists [], x, y, l; auto|].
  destruct IH as (P & u & v & Q & -> & F); [exact H|]. exists (FVertex x :: P), u, v, Q. split; [reflexivity|]. now constructor.
Qed.
Lemma dimension_vertices P : Forall (fun f => is_edge f = false) P -> dimension P = 0.
Proof. induction 1 as [|[x y|x] P H F IH]; [reflexivity|discriminate|exact IH]. Qed.
Lemma padd_head (v w : list (Z * list factor)) a b t u : cube_partial_cmp (snd b) (snd a) = None -> v = a :: t -> w = b :: u -> cadd v w = None.
Proof. intros H -> ->. unfold cadd, padd. cbn [take_cursor app psort fst snd]. now rewrite H. Qed.
Theorem boundary_p_none c : pd c -> listed c -> (forall x y, In (FEdge x y) c -> x < y) -> 2 <= dimension c -> get_boundary_p c = None.
Proof.
  intros HD HL HO H2. destruct (split_edge c) as (P & x1 & y1 & R & -> & FP); [lia|].
  rewrite dimension_app, (dimension_vertices P FP) in H2. change (dimension (FEdge x1 y1 :: R)) with (S (dimension R)) in H2.
  destruct (split_edge R) as (M & x2 & y2 & Q & -> & FM); [lia|].
  assert (H1 : x1 < y1) by (apply HO, in_or_app; right; now left).
  assert (H2' : x2 < y2) by (apply HO, in_or_app; right; right; apply in_or_app; right; now left).
  unfold get_boundary_p. rewrite loop_vertices by exact FP. cbn [app boundary_loop_p].
  destruct (first_step P x1 y1 (M ++ FEdge x2 y2 :: Q) (-1) HD HL H1 ltac:(auto)) as [E1 C1]. rewrite step_unfold with (1 := E1).
  change (cadd [] [((- -1)%Z, P ++ FVertex x1 :: M ++ FEdge x2 y2 :: Q); ((-1)%Z, P ++ f_sort (FVertex y1 :: M ++ FEdge x2 y2 :: Q))]) with (Some [(1%Z, P ++ FVertex x1 :: M ++ FEdge x2 y2 :: Q); ((-1)%Z, P ++ f_sort (FVertex y1 :: M ++ FEdge x2 y2 :: Q))]).
  cbn [obind]. rewrite loop_vertices by exact FM. cbn [boundary_loop_p]. set (P2 := (P ++ [FEdge x1 y1]) ++ M).
  assert (EP : P ++ FEdge x1 y1 :: M ++ FEdge x2 y2 :: Q = P2 ++ FEdge x2 y2 :: Q) by (unfold P2; rewrite <- !app_assoc; reflexivity). rewrite EP in HD, HL.
  destruct (first_step P2 x2 y2 Q (-1 * -1)%Z HD HL H2' ltac:(auto)) as [E2 C2]. rewrite step_unfold with (1 := E2).
  rewrite (padd_head _ _ (1%Z, P ++ FVertex x1 :: M ++ FEdge x2 y2 :: Q) ((- (-1 * -1))%Z, P2 ++ FVertex x2 :: Q) _ _) with (2 := eq_refl) (3 := eq_refl); [reflexivity|].
  cbn [snd]. unfold P2. rewrite <- !app_assoc. rewrite cpc_prefix. cbn [app cube_partial_cmp]. unfold f_partial_cmp. cbn [f_eqb is_disjoint_from]. now rewrite Nat.eqb_refl.
Qed.
Theorem boundary_p_one c P x y l : pd c -> listed c -> c = P ++ FEdge x y :: l -> x < y -> dimension c = 1 -> get_boundary_p c = Some [(1%Z, P ++ FVertex x :: l); ((-1)%Z, f_sort (P ++ FVertex y :: l))].
Proof.
  intros HD HL -> Hxy H1. rewrite dimension_app in H1. change (dimension (FEdge x y :: l)) with (S (dimension l)) in H1.
  assert (V : forall q, dimension q = 0 -> Forall (fun f => is_edge f = false) q). { clear. induction q as [|[x y|x] q IH]; intros H; [constructor|discriminate|constructor; [reflexivity|now apply IH]]. }
  unfold get_boundary_p. rewrite loop_vertices by (apply V; lia). cbn [app boundary_loop_p].
  destruct (first_step P x y l (-1) HD HL Hxy ltac:(auto)) as [E1 C1]. rewrite step_unfold with (1 := E1). change (- -1)%Z with 1%Z.
  change (cadd [] [(1%Z, P ++ FVertex x :: l); ((-1)%Z, P ++ f_sort (FVertex y :: l))]) with (Some [(1%Z, P ++ FVertex x :: l); ((-1)%Z, P ++ f_sort (FVertex y :: l))]). cbn [obind].
  match goal with |- context [boundary_loop_p ?st ?pre l] => replace (boundary_loop_p st pre l) with (boundary_loop_p st pre (l ++ [])) by now rewrite app_nil_r end. rewrite loop_vertices by (apply V; lia). cbn [boundary_loop_p obind fst]. do 4 f_equal. symmetry. destruct (listed_app _ _ HL) as (LP & LE & LPl). apply f_sort_prefix; [|exact LP|].
  - apply (pd_perm (FVertex y :: P ++ l)); [apply Permutation_middle|]. apply (pd_perm _ (FEdge x y :: P ++ l)) in HD; [|symmetry; apply Permutation_middle]. apply pd_cons in HD. apply pd_cons. split; [|apply HD].
    eapply Forall_impl; [|apply HD]. intros f D v [<-|[]]. apply D. cbn. auto.
  - intros p q Hp [<-|Hq]; [|apply LPl; [exact Hp|now right]]. specialize (LPl p (FEdge x y) Hp (or_introl eq_refl)). cbn [low] in *. lia.
Qed.
Theorem boundary_p_zero c : dimension c = 0 -> get_boundary_p c = Some [].
Proof.
  intros H. unfold get_boundary_p. rewrite <- (app_nil_r c). rewrite loop_vertices; [reflexivity|]. revert H. clear. induction c as [|[x y|x] q IH]; intros H; [constructor|discriminate|constructor; [reflexivity|now apply IH]].
Qed.
