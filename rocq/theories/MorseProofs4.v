(** The tree of a subdivided graph starts with a path. *)
From Coq Require Import List Arith Bool Lia String Sorted Permutation.
From Verif Require Import PidModel PermModel PermSpec PermProofs PermProofs2 PermProofs3 SnfModel MatModel GraphModel GraphSpec GraphProofs GraphProofs5 GraphProofs6 GraphProofs7 GraphProofs8 GraphProps
  LabGraphModel LabGraphSpec LabGraphProofs LabGraphProofs2 SubdivSpec SubdivProofs SubdivProofs2 SubdivProps CubeModel CubeSpec CubeProps MorseModel MorseSpec MorseProofs.
Import ListNotations.
Open Scope nat_scope.

(** What a base point gives, without counting. *)
Definition base_like (n : nat) (r : nat -> nat -> bool) (v : nat) : Prop :=
  (forall x y, r v x = true -> r v y = true -> x = y) \/
  ((exists x y z, x <> y /\ x <> z /\ y <> z /\ r v x = true /\ r v y = true /\ r v z = true) /\ forall x y, x < n -> y < n -> x <> v -> y <> v -> path (avoiding v r) x y).
Lemma good_base_like g v : GI g -> good_base (g_n g) (edge g) v -> base_like (g_n g) (edge g) v.
Proof.
  intros HG (Hv & [D|(D & P)]).
  - left. intros x y Hx Hy. destruct (Nat.eq_dec x y) as [|N]; [assumption|]. exfalso. unfold deg in D.
    assert (K : incl [x; y] (filter (edge g v) (seq 0 (g_n g)))).
    { intros z [<-|[<-|[]]]; apply filter_In; (split; [apply in_seq|assumption]); [pose proof (edge_lt g v x HG Hx)|pose proof (edge_lt g v y HG Hy)]; lia. }
    apply NoDup_incl_length in K; [cbn [List.length] in K; lia|]. constructor; [cbn; intuition congruence|constructor; [auto|constructor]].
  - right. split; [|exact P]. unfold deg in D. pose proof (NoDup_filter (edge g v) (seq_NoDup (g_n g) 0)) as ND. destruct (filter (edge g v) (seq 0 (g_n g))) as [|x [|y [|z t]]] eqn:E; cbn in D; try lia.
    assert (K : forall w, In w [x; y; z] -> edge g v w = true). { intros w Hw. assert (In w (filter (edge g v) (seq 0 (g_n g)))) as H by (rewrite E; cbn in *; tauto). apply filter_In in H. tauto. }
    exists x, y, z. inversion ND as [|? ? N1 ND1]; subst. inversion ND1 as [|? ? N2 ND2]; subst. cbn in N1, N2. repeat split; try (intros ->; tauto); apply K; cbn; tauto.
Qed.
Lemma base_like_relab g p h v : relab g p h -> base_like (g_n g) (edge g) v -> base_like (g_n h) (edge h) (pmap p v).
Proof.
  intros R B. destruct (pinverse_spec p (L_nf _ _ _ R)) as (q & _ & _ & Q1 & Q2). rewrite (L_n _ _ _ R).
  assert (E : forall x, edge h (pmap p v) x = edge g v (pmap q x)) by (intros x; now rewrite <- (L_edge _ _ _ R), Q2). destruct B as [U|((x & y & z & N1 & N2 & N3 & A & B & C) & P)].
  - left. intros x y Hx Hy. rewrite E in Hx, Hy. rewrite <- (Q2 x), <- (Q2 y). f_equal. now apply U.
  - right. assert (Inj : forall a b, pmap p a = pmap p b -> a = b) by (intros a b K; rewrite <- (Q1 a), <- (Q1 b); now f_equal). split.
    + exists (pmap p x), (pmap p y), (pmap p z). rewrite !E, !Q1. repeat split; auto.
    + assert (L : forall x, x < g_n g <-> pmap p x < g_n g) by apply (supp_lt _ _ (L_nf _ _ _ R) (L_supp _ _ _ R)).
      intros a b Ha Hb Na Nb. rewrite <- (Q2 a), <- (Q2 b). apply (path_map (avoiding v (edge g))).
      * intros c d K. apply (p_step _ _ (pmap p c)); [constructor|]. unfold avoiding in *. apply andb_true_iff in K as (K & K3). apply andb_true_iff in K as (K1 & K2). rewrite (L_edge _ _ _ R), K3, andb_true_r.
        destruct (Nat.eqb_spec c v), (Nat.eqb_spec d v); try discriminate. destruct (Nat.eqb_spec (pmap p c) (pmap p v)) as [e|]; [apply Inj in e; contradiction|]. destruct (Nat.eqb_spec (pmap p d) (pmap p v)) as [e|]; [apply Inj in e; contradiction|]. reflexivity.
      * apply P; [apply L; now rewrite Q2|apply L; now rewrite Q2|intros e; apply Na; rewrite <- e; now rewrite Q2|intros e; apply Nb; rewrite <- e; now rewrite Q2].
Qed.
Lemma tree_base g h p : GI g -> choose_maximal_tree g = Some (h, p) -> base_like (g_n h) (edge h) 0.
Proof.
  intros HG E. destruct (maximal_tree_base g h p HG E) as (v & Hv & <-). pose proof (maximal_tree_spec g HG) as H. rewrite E in H. apply (base_like_relab g p); [apply H|]. now apply good_base_like.
Qed.

(** The base point has one child. *)
Lemma path_side r (P : nat -> Prop) x y : (forall a b, r a b = true -> P a -> P b) -> path r x y -> P x -> P y.
Proof. intros H. induction 1; eauto. Qed.
Lemma base_child g : AR g -> base_like (g_n g) (edge g) 0 -> forall j, child g 0 j -> j = 1.
Proof.
  intros HA B j C. destruct (Nat.eq_dec j 1) as [|N]; [assumption|]. exfalso. destruct (child_lt g HA 0 j C) as (L0 & Lj & E0). destruct (has_parent g HA 1) as (w & C1); [lia|lia|]. destruct (child_lt g HA w 1 C1) as (Lw & _ & E1).
  assert (w = 0) by lia. subst w. destruct B as [U|(_ & P)]; [apply N; now apply U|].
  assert (K : j < j); [|lia]. apply (path_side (avoiding 0 (edge g)) (fun x => 0 < x < j) 1 j); [|apply P; lia|lia].
  intros a b H Ha. unfold avoiding in H. apply andb_true_iff in H as (H & Hab). apply andb_true_iff in H as (H1 & H2). destruct (Nat.eqb_spec b 0); [discriminate H2|]. split; [lia|].
  destruct (Nat.lt_ge_cases b j) as [|L]; [assumption|]. exfalso. rewrite (no_cross g 0 j a b (AR_dfs g HA) C) in Hab by lia. discriminate Hab.
Qed.

Lemma adj_inner2 es m s t k l w : 2 <= m -> adjacent es m (inner_vertex m s t k l) w -> w = before m s t k l \/ w = after m s t k l.
Proof. intros Hm. now apply adj_inner. Qed.
(** Inner vertices have two different neighbours. *)
Lemma inner_two es m s t k l : 2 <= m -> not_after es s t -> k < mult es s t -> 1 <= l <= inner m s t ->
  before m s t k l <> after m s t k l /\ adjacent es m (inner_vertex m s t k l) (before m s t k l) /\ adjacent es m (inner_vertex m s t k l) (after m s t k l).
Proof.
  intros Hm HN Hk Hl. unfold before, after. split; [|split].
  - destruct (Nat.eqb_spec l 1) as [E1|N1], (Nat.eqb_spec l (inner m s t)) as [E|N2]; try discriminate.
    + intros K. injection K as <-. unfold inner in E. rewrite String.eqb_refl in E. lia.
    + unfold inner_vertex. intros K. injection K. lia.
  - destruct (Nat.eqb_spec l 1) as [->|N1]; [right; now constructor|]. right. replace (inner_vertex m s t k l) with (inner_vertex m s t k (S (l - 1))) by (f_equal; lia). constructor; auto. lia.
  - destruct (Nat.eqb_spec l (inner m s t)) as [->|N2]; [right; now constructor|]. left. replace (l + 1) with (S l) by lia. constructor; auto. lia.
Qed.
Lemma inner_vertices es m s t k l : 2 <= m -> not_after es s t -> k < mult es s t -> 1 <= l <= inner m s t -> SubdivSpec.is_vertex es m (before m s t k l) /\ SubdivSpec.is_vertex es m (after m s t k l).
Proof.
  intros Hm HN Hk Hl. destruct HN as (i & j & Lij & Ei & Ej). pose proof Ei as Ei'. pose proof Ej as Ej'. apply nth_error_In, registered_in in Ei. apply nth_error_In, registered_in in Ej. unfold before, after. split.
  - destruct (Nat.eqb_spec l 1); [now constructor|]. constructor; [exists i, j; auto|exact Hk|lia].
  - destruct (Nat.eqb_spec l (inner m s t)); [now constructor|]. constructor; [exists i, j; auto|exact Hk|lia].
Qed.

Section Sub.
Variables (es : list (string * string)) (m : nat) (L : list svertex) (g : rawg).
Hypothesis Hm : 2 <= m.
Hypothesis HA : AR g.
Hypothesis D : describes es m L (edge g).
Hypothesis HL : List.length L = g_n g.
Hypothesis HB : base_like (g_n g) (edge g) 0.

Lemma L_nth x : x < g_n g -> exists u, nth_error L x = Some u /\ SubdivSpec.is_vertex es m u.
Proof. intros H. destruct (nth_error L x) as [u|] eqn:E; [|apply nth_error_None in E; lia]. exists u. split; [reflexivity|]. apply D. eapply nth_error_In; eassumption. Qed.
Lemma L_inj x y u : nth_error L x = Some u -> nth_error L y = Some u -> x = y.
Proof. intros Hx Hy. apply (proj1 (NoDup_nth_error L) (proj1 D)); [apply nth_error_Some; congruence|congruence]. Qed.
Lemma L_adj x y u v : nth_error L x = Some u -> nth_error L y = Some v -> edge g x y = true <-> adjacent es m u v.
Proof. apply D. Qed.
Lemma edge_nth x y : edge g x y = true -> exists u v, nth_error L x = Some u /\ nth_error L y = Some v /\ adjacent es m u v.
Proof.
  intros E. pose proof (edge_lt g x y (AR_GI g HA) E) as (Lx & Ly & _). destruct (L_nth x Lx) as (u & Hu & _). destruct (L_nth y Ly) as (v & Hv & _). exists u, v. split; [exact Hu|]. split; [exact Hv|]. now apply (L_adj x y).
Qed.
(** A vertex with three neighbours, or with one, is a label. *)
Lemma three_label v x y z : edge g v x = true -> edge g v y = true -> edge g v z = true -> x <> y -> x <> z -> y <> z -> exists s, nth_error L v = Some (Essential s).
Proof.
  intros Ex Ey Ez N1 N2 N3. destruct (edge_nth _ _ Ex) as (u & ux & Hu & Hx & Ax). destruct (edge_nth _ _ Ey) as (u1 & uy & Hu1 & Hy & Ay). destruct (edge_nth _ _ Ez) as (u2 & uz & Hu2 & Hz & Az).
  rewrite Hu in Hu1, Hu2. injection Hu1 as <-. injection Hu2 as <-. destruct u as [s|s t k l q]; [exists s; exact Hu|]. exfalso.
  assert (V : SubdivSpec.is_vertex es m (LabGraphModel.Redundant s t k l q)) by (apply D; eapply nth_error_In; eassumption). assert (q = denom m s t) by (inversion V; reflexivity). subst q. fold (inner_vertex m s t k l) in *.
  apply adj_inner2 in Ax, Ay, Az; try exact Hm. destruct Ax as [->| ->], Ay as [->| ->], Az as [->| ->]; first [apply N1; eapply L_inj; eassumption|apply N2; eapply L_inj; eassumption|apply N3; eapply L_inj; eassumption].
Qed.
Lemma zero_label : exists s, nth_error L 0 = Some (Essential s).
Proof.
  destruct HB as [U|((x & y & z & N1 & N2 & N3 & Ex & Ey & Ez) & _)]; [|now apply (three_label 0 x y z)].
  pose proof (GI_pos _ (AR_GI g HA)) as Hp. destruct (L_nth 0 ltac:(lia)) as (u & Hu & V). destruct u as [s|s t k l q]; [exists s; exact Hu|]. exfalso.
  inversion V as [|? ? ? ? HN Hk Hl]; subst. destruct (inner_two es m s t k l Hm HN Hk Hl) as (N & A1 & A2). destruct (inner_vertices es m s t k l Hm HN Hk Hl) as (V1 & V2).
  apply D in V1, V2. apply In_nth_error in V1 as (x & Hx), V2 as (y & Hy). fold (inner_vertex m s t k l) in Hu. assert (x = y) by (apply U; [now apply (L_adj 0 x _ _ Hu Hx)|now apply (L_adj 0 y _ _ Hu Hy)]). subst y. congruence.
Qed.
Lemma sub_stem : m <= g_n g -> stem g m.
Proof.
  intros HN. split; [exact HN|]. assert (K : forall k, k + 1 < m -> (forall j, child g k j -> j = k + 1)); [|intros k j Hk T; apply (te_child g HA) in T; now apply (K k)].
  induction k as [k IH] using lt_wf_ind. intros Hk j C. destruct (Nat.eq_dec k 0) as [->|Nk]; [now apply (base_child g HA HB)|].
  destruct (Nat.eq_dec j (k + 1)) as [|N]; [assumption|]. exfalso. destruct (child_lt g HA k j C) as (Lk & Lj & Ek).
  (* walk from 0 to k *)
  assert (Par : forall i, i <= k -> 0 < i -> child g (i - 1) i).
  { intros i Hi H0. destruct (has_parent g HA i) as (w & Cw); [lia|lia|]. destruct (child_lt g HA w i Cw) as (Lw & _). pose proof (IH w ltac:(lia) ltac:(lia) i Cw). replace (i - 1) with w by lia. exact Cw. }
  assert (W : forall i, i <= k -> forall u v, nth_error L 0 = Some u -> nth_error L i = Some v -> walk es m i u v).
  { induction i as [|i IHi]; intros Hi u v Hu Hv; [rewrite Hu in Hv; injection Hv as <-; constructor|]. destruct (L_nth i ltac:(lia)) as (w & Hw & _). apply (w_cons _ _ i u w); [apply IHi; auto; lia|].
    apply (L_adj i (S i)); auto. pose proof (Par (S i) Hi ltac:(lia)) as Cp. replace (S i - 1) with i in Cp by lia. apply Cp. }
  assert (C1 : edge g k (k + 1) = true).
  { destruct (has_parent g HA (k + 1)) as (w & Cw); [lia|lia|]. destruct (child_lt g HA w (k + 1) Cw) as (Lw & _ & Ew). destruct (Nat.eq_dec w k) as [->|Nw]; [exact Ew|]. exfalso.
    (* k+1 would lie between k and j but hang below k *)
    pose proof (child_between g HA k j (k + 1) w C ltac:(lia) ltac:(lia) Cw). lia. }
  pose proof (Par k ltac:(lia) ltac:(lia)) as Cp. destruct (child_lt g HA _ _ Cp) as (_ & _ & Ep).
  destruct (three_label k (k - 1) (k + 1) j) as (s & Hs); auto; try lia; [rewrite edge_sym; exact Ep|]. destruct zero_label as (s0 & H0).
  pose proof (W k ltac:(lia) _ _ H0 Hs) as Wk. destruct (string_dec s0 s) as [->|Ns]; [apply Nk; eapply L_inj; eassumption|]. pose proof (C67_paths es m s0 s k Hm Ns Wk). lia.
Qed.
End Sub.

Lemma subdivided_stem es gr n sg : graph_from es = Some gr -> subdivided_graph_from gr n = Some sg -> connected (g_n_vertices (sg_data sg)) (edge (sg_data sg)) -> stem (sg_data sg) (Nat.max n 2).
Proof.
  intros E ES HC. pose proof (arranged_AR _ (ar_sub es gr n sg E ES HC)) as HA. destruct (C66_subdivision es gr n sg E ES) as (D & _ & HL & _). cbn zeta in D.
  destruct (sub_made gr n sg es E ES) as (g & p & HG & ET). apply (sub_stem es _ (sg_list sg)); auto; [lia|now apply (tree_base g _ p)|]. exact (sub_size es gr n sg E ES).
Qed.
Lemma stem_le g n n' : n' <= n -> stem g n -> stem g n'.
Proof. intros H [A B]. split; [lia|]. intros k j Hk. apply B. lia. Qed.
