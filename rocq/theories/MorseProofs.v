(** The maximal-tree methods of cube factors, and [property]. *)
From Coq Require Import List Arith Bool Lia Sorted Permutation.
From Verif Require Import PidModel PermModel PermSpec PermProofs PermProofs2 PermProofs3 SnfModel MatModel GraphModel GraphSpec GraphProofs GraphProofs5 GraphProofs6 GraphProofs7 GraphProofs8 GraphProps LabGraphModel SubdivProps
  CubeModel CubeSpec CubeProofs MorseModel MorseSpec.
Import ListNotations.
Open Scope nat_scope.

Record AR (g : rawg) : Prop := { AR_GI : GI g; AR_tree : g_tree g = true; AR_conn : connected (g_n g) (edge g); AR_dfs : dfs_ordered g }.
Lemma relab_connected_back g p h : relab g p h -> connected (g_n h) (edge h) -> connected (g_n g) (edge g).
Proof.
  intros R HC. destruct (pinverse_spec p (L_nf _ _ _ R)) as (q & _ & _ & Q1 & Q2). intros x y Hx Hy. rewrite <- (Q1 x), <- (Q1 y). apply (path_map (edge h)).
  - intros a b Eab. apply (p_step _ _ (pmap q a)); [constructor|]. now rewrite <- (L_edge _ _ _ R), !Q2.
  - apply HC; rewrite (L_n _ _ _ R); now apply (proj1 (supp_lt _ _ (L_nf _ _ _ R) (L_supp _ _ _ R) _)).
Qed.
Lemma arranged_AR g : arranged g -> AR g.
Proof.
  intros [g0 h p Mg HC E|es gr m sg E ES HC].
  - pose proof (maximal_tree_spec g0 (made_GI g0 Mg)) as H. rewrite E in H. destruct H as (_ & R & T & D). destruct (D HC) as [D1 _].
    split; [apply (L_GI _ _ _ R)|exact T|exact (relab_connected _ _ _ R HC)|exact D1].
  - destruct es as [|e es']; [injection E as <-; discriminate ES|]. set (es := e :: es') in *.
    pose proof (sub_spec es gr m E ltac:(discriminate)) as HS. cbn zeta in HS. destruct HS as (g0 & HG & _ & _ & _ & HT).
    pose proof (maximal_tree_spec g0 HG) as HM. destruct (choose_maximal_tree g0) as [[h p]|]; [|congruence].
    destruct HT as (L & EL & _). rewrite EL in ES. injection ES as <-. cbn [sg_data] in *. destruct HM as (_ & R & T & D).
    destruct (D (relab_connected_back _ _ _ R HC)) as [D1 _]. split; [apply (L_GI _ _ _ R)|exact T|exact HC|exact D1].
Qed.

Lemma findM_find {A} (p : A -> option bool) (q : A -> bool) l : (forall x, In x l -> p x = Some (q x)) -> findM p l = Some (find q l).
Proof. induction l as [|x t IH]; intros H; [reflexivity|]. cbn. rewrite H by now left. cbn. destruct (q x); [reflexivity|]. apply IH. intros y Hy. apply H. now right. Qed.
Lemma anyM_existsb {A} (p : A -> option bool) (q : A -> bool) l : (forall x, In x l -> p x = Some (q x)) -> anyM p l = Some (existsb q l).
Proof. induction l as [|x t IH]; intros H; [reflexivity|]. cbn. rewrite H by now left. cbn. destruct (q x); [reflexivity|]. apply IH. intros y Hy. apply H. now right. Qed.
Lemma allM_forallb {A} (p : A -> option bool) (q : A -> bool) l : (forall x, In x l -> p x = Some (q x)) -> allM p l = Some (forallb q l).
Proof. induction l as [|x t IH]; intros H; [reflexivity|]. cbn. rewrite H by now left. cbn. destruct (q x); [|reflexivity]. apply IH. intros y Hy. apply H. now right. Qed.
Lemma find_rev_seq (q : nat -> bool) w : forall v, w < v -> q w = true -> (forall k, w < k < v -> q k = false) -> find q (rev (seq 0 v)) = Some w.
Proof.
  induction v as [|v IH]; intros Hw Hq Hk; [lia|]. rewrite seq_S, rev_app_distr. cbn. destruct (Nat.eq_dec w v) as [->|N]; [now rewrite Hq|].
  rewrite Hk by lia. apply IH; [lia|exact Hq|]. intros k H. apply Hk. lia.
Qed.
Lemma find_rev_seq_none (q : nat -> bool) : forall v, (forall k, k < v -> q k = false) -> find q (rev (seq 0 v)) = None.
Proof. intros v H. destruct (find q (rev (seq 0 v))) eqn:E; [|reflexivity]. apply find_some in E as [E1 E2]. apply in_rev, in_seq in E1. rewrite H in E2 by lia. discriminate E2. Qed.

Section G.
Variable g : rawg.
Hypothesis HA : AR g.
Let HG := AR_GI g HA.
Lemma te_child i j : tree_edge g i j <-> child g i j.
Proof. apply tree_edge_child; [exact HG|apply AR_tree, HA]. Qed.
Lemma child_lt i j : child g i j -> i < j /\ j < g_n g /\ edge g i j = true.
Proof. intros (A & B & _). split; [exact A|]. split; [apply (edge_lt g i j HG B)|exact B]. Qed.
Lemma child_unique i i' j : child g i j -> child g i' j -> i = i'.
Proof. intros (A & B & C) (A' & B' & C'). destruct (Nat.lt_trichotomy i i') as [K|[K|K]]; [rewrite C in B' by lia; discriminate B'|exact K|rewrite C' in B by lia; discriminate B]. Qed.
Lemma has_parent v : 0 < v -> v < g_n g -> exists w, child g w v.
Proof. intros H0 Hv. destruct (parent g v HG (AR_conn g HA) (AR_dfs g HA) H0 Hv) as (i & A & _). now exists i. Qed.
(** Between the ends of a tree edge there are only descendants of its lower end. *)
Lemma child_between w u x p : child g w u -> w < x -> x < u -> child g p x -> w <= p.
Proof.
  intros (A & B & C) H1 H2 (D & E & F). destruct (AR_dfs g HA x w u H1 H2 B) as (l & Hl & El). destruct (Nat.lt_ge_cases p w) as [K|K]; [|exact K].
  rewrite F in El by lia. discriminate El.
Qed.
Lemma tree_contains_child i j : i < j -> j < g_n g -> exists b, tree_contains g i j = Some b /\ (b = true <-> child g i j).
Proof. intros H1 H2. exists (childb g i j). split; [apply tree_contains_spec; auto; apply AR_tree, HA|now apply childb_iff]. Qed.

Lemma flow_test i v : i < v -> v < g_n g -> (do c <- g_contains g i v; if c then tree_contains g i v else Some false) = Some (childb g i v).
Proof.
  intros H1 H2. rewrite contains_edge by auto. cbn. rewrite tree_contains_spec by (auto; apply AR_tree, HA). destruct (edge g i v) eqn:E; [reflexivity|]. unfold childb. now rewrite E.
Qed.
Lemma f_flow_child w v : child g w v -> f_flow g (FVertex v) = Some (FEdge w v).
Proof.
  intros C. destruct (child_lt w v C) as (A & B & _). unfold f_flow. destruct (Nat.eqb_spec v 0) as [->|_]; [lia|].
  rewrite (findM_find _ (fun i => childb g i v)) by (intros i Hi; apply in_rev, in_seq in Hi; apply flow_test; lia). cbn.
  rewrite (find_rev_seq _ w); [reflexivity|exact A|now apply childb_iff|]. intros k Hk. destruct (childb g k v) eqn:E; [|reflexivity].
  apply childb_iff in E; [|lia]. pose proof (child_unique _ _ _ C E). lia.
Qed.
Lemma f_flow_out v : g_n g <= v -> f_flow g (FVertex v) = None.
Proof.
  intros Hv. unfold f_flow. destruct (Nat.eqb_spec v 0) as [->|N]; [reflexivity|]. destruct v as [|v]; [lia|]. rewrite seq_S, rev_app_distr. cbn [rev app findM Nat.add].
  rewrite (proj2 (proj2 (add_edge_bad g v (S v) HG ltac:(lia)))). reflexivity.
Qed.

(** Occupation. *)
Lemma occupies_spec w f : occupies (FVertex w) f = Some (existsb (Nat.eqb w) (verts f)).
Proof.
  unfold occupies. destruct f as [x y|x]; cbn.
  - rewrite (Nat.eqb_sym w x), (Nat.eqb_sym w y). destruct (x =? w); [reflexivity|]. cbn. now rewrite orb_false_r.
  - rewrite (Nat.eqb_sym w x). destruct (x =? w); reflexivity.
Qed.
Definition occb (c : list factor) (w : nat) : bool := existsb (fun f => existsb (Nat.eqb w) (verts f)) c.
Lemma occb_iff c w : occb c w = true <-> occupied c w.
Proof.
  unfold occb, occupied. rewrite existsb_exists. split; intros (f & Hf & H); exists f; (split; [exact Hf|]).
  - apply existsb_exists in H as (x & Hx & E). apply Nat.eqb_eq in E. now subst.
  - apply existsb_exists. exists w. split; [exact H|]. apply Nat.eqb_refl.
Qed.
Lemma occb_false c w : occb c w = false <-> ~ occupied c w.
Proof. rewrite <- occb_iff. destruct (occb c w); split; congruence. Qed.
Lemma is_blocked_zero c : is_blocked g c (FVertex 0) = Some true.
Proof. reflexivity. Qed.
Lemma is_blocked_child c w v : child g w v -> is_blocked g c (FVertex v) = Some (occb c w).
Proof.
  intros C. destruct (child_lt w v C) as (A & _). unfold is_blocked. destruct (Nat.eqb_spec v 0) as [->|_]; [lia|]. rewrite (f_flow_child w v C). cbn.
  apply anyM_existsb. intros x _. apply occupies_spec.
Qed.
Lemma is_blocked_spec c v : v < g_n g -> exists b, is_blocked g c (FVertex v) = Some b /\ (b = true <-> blocked g c v).
Proof.
  intros Hv. destruct (Nat.eq_dec v 0) as [->|N]; [exists true; split; [reflexivity|split; [intros _; now left|auto]]|].
  destruct (has_parent v) as (w & C); [lia|exact Hv|]. exists (occb c w). split; [now apply is_blocked_child|]. rewrite occb_iff. unfold blocked. split.
  - intros H. right. exists w. split; [now apply te_child|exact H].
  - intros [K|(w' & K1 & K2)]; [lia|]. apply te_child in K1. now rewrite (child_unique _ _ _ C K1).
Qed.
Lemma blocked_dec c v : v < g_n g -> {blocked g c v} + {~ blocked g c v}.
Proof. intros Hv. destruct (is_blocked g c (FVertex v)) as [[]|] eqn:E; [left|right|right]; destruct (is_blocked_spec c v Hv) as (b & E' & H); rewrite E in E'; [injection E' as <-; now apply H|injection E' as <-; intros K; apply H in K; discriminate K|discriminate E']. Qed.

(** [property]. *)
Definition between (x y : nat) (f : factor) : bool := match f with FVertex v => (x <? v) && (v <? y) | FEdge _ _ => false end.
Lemma movable_spec c f : closed_cell g f -> exists b, movable g c f = Some b /\ (b = true <-> mobile g c f).
Proof.
  intros Hf. destruct f as [x y|v].
  - destruct Hf as [Hxy E]. pose proof (edge_lt g x y HG E) as (_ & Hy & _). destruct (tree_contains_child x y Hxy Hy) as (b & E1 & Hb).
    unfold movable, is_vertex, is_edge, is_in_maximal_tree. cbn [negb]. rewrite E1. cbn [obind]. destruct b.
    + unfold is_order_respecting, f_edge. cbn [obind fst snd]. rewrite (proj2 (Nat.leb_le x y)) by lia. cbn [obind].
      pose proof (proj2 (te_child x y) (proj1 Hb eq_refl)) as TE.
      destruct (Nat.eqb_spec (y - x) 1) as [K|K].
      * exists true. split; [reflexivity|]. split; [|auto]. intros _. split; [exact TE|]. intros v _. lia.
      * rewrite (allM_forallb _ (fun f => negb (between x y f))).
        2:{ intros f _. destruct f as [a b|v]; cbn; [reflexivity|]. reflexivity. }
        eexists. split; [reflexivity|]. rewrite forallb_forall. split.
        -- intros H. split; [exact TE|]. intros v Hv Hb2. specialize (H _ Hv). cbn [between] in H. rewrite (proj2 (Nat.ltb_lt x v)), (proj2 (Nat.ltb_lt v y)) in H by lia. discriminate H.
        -- intros (_ & H) f Hin. destruct f as [a b|v]; [reflexivity|]. cbn [between]. specialize (H v Hin). destruct (Nat.ltb_spec x v), (Nat.ltb_spec v y); cbn; auto; lia.
    + exists false. split; [reflexivity|]. split; [discriminate|]. intros (TE & _). apply te_child in TE. apply Hb in TE. discriminate TE.
  - destruct (is_blocked_spec c v Hf) as (b & E & Hb). unfold movable, is_vertex, is_edge. cbn [negb]. rewrite E. cbn [obind]. exists (negb b). split; [reflexivity|]. cbn [mobile].
    rewrite <- Hb. destruct b; cbn; split; congruence.
Qed.
Lemma property_from_spec c : forall l i, Forall (closed_cell g) l ->
  (property_from g c i l = Some Critical /\ (forall f, In f l -> ~ mobile g c f)) \/
  (exists k f, property_from g c i l = Some (if is_vertex f then Redundant (i + k) else Collapsible (i + k)) /\ nth_error l k = Some f /\ mobile g c f /\
     forall j f', j < k -> nth_error l j = Some f' -> ~ mobile g c f').
Proof.
  induction l as [|f t IH]; intros i HF; [left; split; [reflexivity|intros f []]|]. inversion HF as [|? ? H1 H2]; subst. destruct (movable_spec c f H1) as (b & E & Hb).
  cbn [property_from]. rewrite E. cbn [obind]. destruct b.
  - right. exists 0, f. rewrite Nat.add_0_r. split; [reflexivity|]. split; [reflexivity|]. split; [now apply Hb|]. intros; lia.
  - assert (~ mobile g c f) as NM by (intros K; apply Hb in K; discriminate K). destruct (IH (i + 1) H2) as [(A & B)|(k & f' & A & B & C & D)].
    + left. split; [exact A|]. intros f' [<-|K]; auto.
    + right. exists (S k), f'. replace (i + S k) with (i + 1 + k) by lia. split; [exact A|]. split; [exact B|]. split; [exact C|].
      intros j f'' Hj Hn. destruct j as [|j]; [cbn in Hn; injection Hn as <-; exact NM|]. apply (D j); [lia|exact Hn].
Qed.
Lemma property_spec c : Forall (closed_cell g) c ->
  (property g c = Some Critical /\ (forall f, In f c -> ~ mobile g c f)) \/
  (exists i f, property g c = Some (if is_vertex f then Redundant i else Collapsible i) /\ first_mobile g c i f).
Proof.
  intros HF. destruct (property_from_spec c c 0 HF) as [H|(k & f & A & B & C & D)]; [now left|]. right. exists k, f. split; [exact A|]. split; auto.
Qed.
Lemma first_mobile_unique c i f i' f' : first_mobile g c i f -> first_mobile g c i' f' -> i = i' /\ f = f'.
Proof.
  intros (A & B & C) (A' & B' & C'). destruct (Nat.lt_trichotomy i i') as [K|[K|K]]; [exfalso; eapply C'; eauto| |exfalso; eapply C; eauto].
  subst i'. rewrite A in A'. injection A' as <-. auto.
Qed.
Lemma property_redundant c i : Forall (closed_cell g) c -> (property g c = Some (Redundant i) <-> exists v, first_mobile g c i (FVertex v)).
Proof.
  intros HF. destruct (property_spec c HF) as [(E & H)|(k & f & E & H)]; rewrite E.
  - split; [discriminate|]. intros (v & A & B & _). apply nth_error_In in A. exfalso. eapply H; eauto.
  - destruct f as [x y|v]; cbn.
    + split; [discriminate|]. intros (v & A). destruct (first_mobile_unique _ _ _ _ _ H A) as (_ & K). discriminate K.
    + split; [intros K; injection K as <-; now exists v|]. intros (v' & A). now destruct (first_mobile_unique _ _ _ _ _ H A) as (-> & _).
Qed.
Lemma property_collapsible c i : Forall (closed_cell g) c -> (property g c = Some (Collapsible i) <-> exists x y, first_mobile g c i (FEdge x y)).
Proof.
  intros HF. destruct (property_spec c HF) as [(E & H)|(k & f & E & H)]; rewrite E.
  - split; [discriminate|]. intros (v & w & A & B & _). apply nth_error_In in A. exfalso. eapply H; eauto.
  - destruct f as [x y|v]; cbn.
    + split; [intros K; injection K as <-; now exists x, y|]. intros (v' & w' & A). now destruct (first_mobile_unique _ _ _ _ _ H A) as (-> & _).
    + split; [discriminate|]. intros (x & y & A). destruct (first_mobile_unique _ _ _ _ _ H A) as (_ & K). discriminate K.
Qed.
Lemma property_critical c : Forall (closed_cell g) c -> (property g c = Some Critical <-> forall f, In f c -> ~ mobile g c f).
Proof.
  intros HF. destruct (property_spec c HF) as [(E & H)|(k & f & E & H)]; rewrite E; [tauto|]. split; [destruct f; discriminate|]. intros K. destruct H as (A & B & _). exfalso. eapply K; eauto using nth_error_In.
Qed.
End G.
