(** C66, C67: subdivision of labelled graphs. *)
From Coq Require Import List Arith ZArith NArith Bool Lia ZifyBool ZifyNat ZifyN String Permutation.
From Verif Require Import UtilModel PidModel PermModel PermSpec PermProofs PermProofs2 PermProofs3 MatModel MatProofs SnfModel SnfProofs2 GraphModel GraphSpec GraphProofs GraphProofs5 GraphProofs8 GraphProps LabGraphModel LabGraphSpec LabGraphProofs LabGraphProofs2 SubdivSpec SubdivProofs SubdivProofs2.
Import ListNotations.
Open Scope nat_scope.

Section S.
  Variables (es : list (string * string)) (m : nat).
  Hypothesis Hm : 2 <= m.
  Let labels := registered es.
  Let n := List.length labels.
  Let lab i := nth i labels EmptyString.
  Lemma lab_eqb i j : i < n -> j < n -> String.eqb (lab i) (lab j) = (i =? j).
  Proof. intros Hi Hj. destruct (Nat.eqb_spec i j) as [->|N]; [apply String.eqb_refl|]. apply String.eqb_neq. intros E. apply N. now apply (lab_inj es). Qed.
  Lemma nth_label i s : nth_error labels i = Some s <-> i < n /\ lab i = s.
  Proof.
    split; [intros E; split; [apply nth_error_Some; congruence|now apply nth_error_nth]|]. intros [H <-]. now apply nth_error_nth'.
  Qed.
  Lemma not_after_iff s t : not_after es s t <-> exists i j, i <= j /\ j < n /\ lab i = s /\ lab j = t.
  Proof.
    unfold not_after. split; intros (i & j & H).
    - destruct H as (H & E1 & E2). apply nth_label in E1, E2. exists i, j. tauto.
    - destruct H as (H & H1 & E1 & E2). exists i, j. split; [exact H|]. split; apply nth_label; (split; [lia|assumption]).
  Qed.
  Lemma key_iff i j k : In (i, j, k) (keys es) <-> i <= j /\ j < n /\ k < mult es (lab i) (lab j).
  Proof. apply in_keys. Qed.
  Lemma sub_list_iff u : In u (sub_list es m) <-> is_vertex es m u.
  Proof.
    unfold sub_list. rewrite in_app_iff, in_map_iff, in_flat_map. split.
    - intros [(s & <- & Hs)|([[i j] k] & Hk & Hu)].
      + constructor. now apply registered_in.
      + apply key_iff in Hk. destruct Hk as (H1 & H2 & H3). apply (key_vertex_in _ _ Hm) in Hu. destruct Hu as (l & Hl & ->). fold labels. fold (lab i) (lab j).
        assert (K : Redundant (lab i) (lab j) k l (if i =? j then m + 1 else m - 1) = inner_vertex m (lab i) (lab j) k l) by (unfold inner_vertex, denom; now rewrite lab_eqb by lia). rewrite K.
        apply v_inner; [apply not_after_iff; exists i, j; auto|exact H3|unfold inner; rewrite lab_eqb by lia; exact Hl].
    - intros [s Hs|s t k l Hn Hk Hl].
      + left. exists s. split; [reflexivity|now apply registered_in].
      + right. apply not_after_iff in Hn. destruct Hn as (i & j & H1 & H2 & <- & <-). exists (i, j, k). split; [now apply key_iff|]. unfold key_vertices, chain_vertices. apply in_map_iff. exists l. unfold inner_vertex, denom, inner in *. rewrite lab_eqb in * by lia. split; [reflexivity|]. apply in_seq. lia.
  Qed.
  Lemma sub_edges_iff u v : In (u, v) (flat_map (key_edges labels m) (keys es)) <-> step es m u v.
  Proof.
    rewrite in_flat_map. split.
    - intros ([[i j] k] & Hk & Hu). apply key_iff in Hk. destruct Hk as (H1 & H2 & H3). unfold key_edges, chain_edges in Hu. fold (lab i) (lab j) in Hu.
      assert (K : forall l, Redundant (lab i) (lab j) k l (if i =? j then m + 1 else m - 1) = inner_vertex m (lab i) (lab j) k l) by (intros l; unfold inner_vertex, denom; now rewrite lab_eqb by lia).
      assert (KI : inner m (lab i) (lab j) = if i =? j then m else Nat.max (m - 2) 1) by (unfold inner; now rewrite lab_eqb by lia).
      assert (KN : not_after es (lab i) (lab j)) by (apply not_after_iff; exists i, j; auto).
      destruct Hu as [[= <- <-]|Hu]; [rewrite K; now constructor|]. apply in_app_iff in Hu. destruct Hu as [Hu|[[= <- <-]|[]]].
      + apply in_map_iff in Hu. destruct Hu as (l & [= <- <-] & Hl). apply in_seq in Hl. rewrite !K. constructor; auto. rewrite KI. lia.
      + rewrite K, <- KI. now constructor.
    - assert (Q : forall s t k, not_after es s t -> k < mult es s t -> exists i j, In (i, j, k) (keys es) /\ key_edges labels m (i, j, k) = chain_edges s t k (denom m s t) (inner m s t)).
      { intros s t k Hn Hk. apply not_after_iff in Hn. destruct Hn as (i & j & H1 & H2 & <- & <-). exists i, j. split; [now apply key_iff|]. unfold key_edges, denom, inner. rewrite lab_eqb by lia. reflexivity. }
      intros [s t k Hn Hk|s t k l Hn Hk Hl|s t k Hn Hk]; destruct (Q s t k Hn Hk) as (i & j & HK & E); exists (i, j, k); (split; [exact HK|]); rewrite E; unfold chain_edges.
      + now left.
      + right. apply in_app_iff. left. apply in_map_iff. exists l. split; [reflexivity|]. apply in_seq. lia.
      + right. apply in_app_iff. right. now left.
  Qed.
  Lemma shows_describes g : shows (List.length (sub_list es m)) g (sub_list es m) (flat_map (key_edges labels m) (keys es)) -> describes es m (sub_list es m) (edge g).
  Proof.
    intros S. split; [apply S|]. split; [apply sub_list_iff|]. intros x y u v Ex Ey. rewrite (sh_edge _ _ _ _ S). unfold adjacent. rewrite <- !sub_edges_iff. split.
    - intros (u' & v' & E1 & E2 & H). congruence.
    - intros H. exists u, v. auto.
  Qed.
End S.

(** The graph before the tree is chosen, and when choosing it panics. *)
Lemma from_nil_not es gr marked sg : graph_from es = Some gr -> subdivided_graph_from gr marked = Some sg -> es <> [].
Proof. intros E H ->. injection E as <-. discriminate H. Qed.
Lemma sub_spec es gr marked : graph_from es = Some gr -> es <> [] -> let m := Nat.max marked 2 in exists g, GI g /\ g_n g = List.length (sub_list es m) /\ g_n g = sub_n_vertices gr m /\
  describes es m (sub_list es m) (edge g) /\
  match choose_maximal_tree g with
  | None => subdivided_graph_from gr marked = None
  | Some (h, p) => exists L, subdivided_graph_from gr marked = Some (SG h L (List.length (lg_labels gr))) /\ List.length L = List.length (sub_list es m) /\ forall k, nth_error L (pmap p k) = nth_error (sub_list es m) k
  end.
Proof.
  intros E Hes m. assert (Hm : 2 <= m) by lia. destruct (subdivide_spec es gr E m Hm Hes) as (g & E1 & S & EL). exists g. pose proof (sh_GI _ _ _ _ S) as HG. pose proof (sh_n _ _ _ _ S) as HN. split; [exact HG|]. split; [congruence|]. split; [exact HN|]. split.
  - rewrite <- EL in S. now apply shows_describes.
  - unfold subdivided_graph_from. replace (if marked <? 2 then 2 else marked) with m by (unfold m; destruct (Nat.ltb_spec marked 2); lia). rewrite E1. cbn [obind fst snd]. pose proof (maximal_tree_spec g HG) as HT. destruct (choose_maximal_tree g) as [[h p]|]; [|reflexivity]. cbn [obind fst snd].
    destruct HT as (_ & R & _). destruct (action_spec (sub_list es m) p (L_nf _ _ _ R)) as (L & EA & LL & NL); [intros x Hx; apply (L_supp _ _ _ R) in Hx; congruence|]. exists L. rewrite EA. cbn [obind]. auto.
Qed.

(** C66: the vertices are the labels and the inner vertices of all edges, each once; two vertices are adjacent exactly when they are consecutive on
    a subdivided edge; and the numbering is one chosen by [choose_maximal_tree]. *)
Theorem C66_subdivision : forall es gr marked sg, graph_from es = Some gr -> subdivided_graph_from gr marked = Some sg ->
  let m := Nat.max marked 2 in
  describes es m (sg_list sg) (edge (sg_data sg)) /\ sg_ess sg = lg_n_vertices gr /\
  List.length (sg_list sg) = g_n_vertices (sg_data sg) /\
  g_n_vertices (sg_data sg) = lg_n_vertices gr + List.length (non_loops es) * Nat.max (m - 2) 1 + List.length (loops es) * m /\
  (connected (g_n_vertices (sg_data sg)) (edge (sg_data sg)) -> forall j, 0 < j < g_n_vertices (sg_data sg) -> exists i, tree_edge (sg_data sg) i j /\ i < j /\ forall i', tree_edge (sg_data sg) i' j -> i' = i).
Proof.
  intros es gr marked sg E ES. cbn zeta. pose proof (from_nil_not _ _ _ _ E ES) as Hes. pose proof (sub_spec es gr marked E Hes) as HS. cbn zeta in HS. destruct HS as (g & HG & HN & HN2 & D & HT). set (m := Nat.max marked 2) in *.
  pose proof (maximal_tree_spec g HG) as HM. destruct (choose_maximal_tree g) as [[h p]|]; [|congruence]. destruct HT as (L & EL & LL & NL). rewrite EL in ES. injection ES as <-. cbn [sg_list sg_data sg_ess]. destruct HM as (_ & R & T & DF).
  assert (Hn : g_n h = g_n g) by apply R. destruct (gr_fields es gr E) as (F1 & F2 & F3 & F4). destruct D as (D1 & D2 & D3).
  assert (Sur : forall x, exists k, pmap p k = x).
  { intros x. destruct (pinverse_spec p (L_nf _ _ _ R)) as (q & _ & _ & Q1 & Q2). exists (pmap q x). auto. }
  split; [|split; [reflexivity|split; [unfold g_n_vertices; congruence|split]]].
  - split; [|split].
    + apply NoDup_nth_error. intros x y Hx Exy. destruct (Sur x) as (a & <-), (Sur y) as (b & <-). rewrite !NL in Exy. f_equal. apply (proj1 (NoDup_nth_error _) D1); [|exact Exy]. apply nth_error_Some. rewrite <- NL. now apply nth_error_Some.
    + intros u. rewrite <- D2. split; intros H; apply In_nth_error in H; destruct H as (x & Ex); [destruct (Sur x) as (a & <-); rewrite NL in Ex|rewrite <- NL in Ex]; eapply nth_error_In; eassumption.
    + intros x y u v Ex Ey. destruct (Sur x) as (a & <-), (Sur y) as (b & <-). rewrite NL in Ex, Ey. rewrite (L_edge _ _ _ R). now apply D3.
  - unfold g_n_vertices. rewrite Hn, HN2. unfold sub_n_vertices. now rewrite F3, F4.
  - intros HC j Hj. unfold g_n_vertices in *. assert (HCg : connected (g_n g) (edge g)).
    { destruct (pinverse_spec p (L_nf _ _ _ R)) as (q & _ & _ & Q1 & Q2). intros x y Hx Hy. rewrite <- (Q1 x), <- (Q1 y). apply (path_map (edge h)).
      - intros a b Eab. apply (p_step _ _ (pmap q a)); [constructor|]. now rewrite <- (L_edge _ _ _ R), !Q2.
      - apply HC; rewrite Hn; now apply (proj1 (supp_lt _ _ (L_nf _ _ _ R) (L_supp _ _ _ R) _)). }
    destruct (DF HCg) as [D4 _]. destruct (parent h j (L_GI _ _ _ R) HC D4) as (i & A & B); [lia|lia|]. exists i. pose proof (tree_edge_child h) as TC. split; [apply TC; [apply R|exact T|exact A]|]. split; [apply A|]. intros i' Hi'. apply B. apply TC in Hi'; [exact Hi'|apply R|exact T].
Qed.
Print Assumptions C66_subdivision.

(** It panics for an empty edge list, and otherwise exactly when the subdivided graph has no usable base point: no leaf, and no vertex of degree
    three or more whose deletion leaves a connected graph (for example a cycle, or two cycles sharing a vertex). *)
Theorem C66_panics_refuted : forall es gr marked, graph_from es = Some gr ->
  let m := Nat.max marked 2 in
  if List.length es =? 0 then subdivided_graph_from gr marked = None else
  exists L r, describes es m L r /\ (subdivided_graph_from gr marked = None <-> forall v, ~ good_base (List.length L) r v).
Proof.
  intros es gr marked E. cbn zeta. destruct es as [|e es']; [injection E as <-; reflexivity|]. set (es := e :: es') in *. cbn [List.length Nat.eqb].
  assert (Hes : es <> []) by discriminate. pose proof (sub_spec es gr marked E Hes) as HS. cbn zeta in HS. destruct HS as (g & HG & HN & HN2 & D & HT). set (m := Nat.max marked 2) in *.
  exists (sub_list es m), (edge g). split; [exact D|]. rewrite <- HN. pose proof (maximal_tree_spec g HG) as HM. destruct (choose_maximal_tree g) as [[h p]|].
  - destruct HT as (L & -> & _). destruct HM as ((v & Hv) & _). split; [discriminate|]. intros K. exfalso. exact (K v Hv).
  - split; auto.
Qed.
Print Assumptions C66_panics_refuted.
Open Scope string_scope.
Example C66_nontrivial : (do gr <- graph_from [("a","b"); ("b","a"); ("b","c"); ("c","c"); ("c","d")]; do sg <- subdivided_graph_from gr 3; Some (g_n_vertices (sg_data sg), sg_list sg)) =
    Some (11, [Essential "d"; Redundant "c" "d" 0 1 2; Essential "c"; Redundant "b" "c" 0 1 2; Essential "b"; Redundant "a" "b" 1 1 2;
               Essential "a"; Redundant "a" "b" 0 1 2; Redundant "c" "c" 0 1 4; Redundant "c" "c" 0 2 4; Redundant "c" "c" 0 3 4]) /\
  (do gr <- graph_from [("a","b"); ("b","a"); ("a","b")]; do sg <- subdivided_graph_from gr 0; Some (sg_list sg)) =
    Some [Essential "a"; Redundant "a" "b" 0 1 1; Essential "b"; Redundant "a" "b" 1 1 1; Redundant "a" "b" 2 1 1].
Proof. vm_compute. auto. Qed.
(** A loop, a double edge, and a connected graph that is not a cycle: all panic. *)
Example C66_panics_nontrivial : let f es := do gr <- graph_from es; do sg <- subdivided_graph_from gr 3; Some (sg_list sg) in
  f [("a","a")] = None /\ f [("a","b"); ("a","b")] = None /\ f [("a","b"); ("b","a"); ("b","c"); ("c","c")] = None.
Proof. vm_compute. auto. Qed.
Close Scope string_scope.

(** C67: between two different labels every walk has at least m - 1 steps, and a loop has m + 1 (Abrams' condition for m points). *)
Section Walk.
  Variables (es : list (string * string)) (m : nat) (s : string).
  Hypothesis Hm : 2 <= m.
  (** A potential that is 0 at [s], m - 1 at every other label, and changes by at most one along a step. *)
  Definition pot (u : svertex) : nat :=
    match u with
    | Essential x => if String.eqb x s then 0 else m - 1
    | Redundant x y k l _ =>
        if String.eqb x s then (if String.eqb y s then 0 else Nat.min l (m - 1))
        else if String.eqb y s then Nat.min (Nat.max (m - 2) 1 + 1 - l) (m - 1) else m - 1
    end.
  Lemma pot_step u v : step es m u v -> pot u <= S (pot v) /\ pot v <= S (pot u).
  Proof.
    intros [x y k _ _|x y k l _ _ Hl|x y k _ _]; unfold pot, inner_vertex.
    - destruct (String.eqb x s), (String.eqb y s); lia.
    - destruct (String.eqb x s), (String.eqb y s); lia.
    - destruct (String.eqb_spec x s) as [->|N], (String.eqb_spec y s) as [->|N']; try lia; unfold inner.
      + destruct (String.eqb_spec s y); [congruence|]. lia.
      + destruct (String.eqb_spec x s); [congruence|]. lia.
  Qed.
  Lemma pot_walk k u v : walk es m k u v -> pot v <= pot u + k.
  Proof.
    induction 1 as [u|k u v w _ IH [H|H]]; [lia| |]; apply pot_step in H; lia.
  Qed.
End Walk.
Theorem C67_paths : forall es m s t k, 2 <= m -> s <> t -> walk es m k (Essential s) (Essential t) -> m - 1 <= k.
Proof.
  intros es m s t k Hm N H. apply (pot_walk es m s Hm) in H. unfold pot in H. rewrite String.eqb_refl in H. destruct (String.eqb_spec t s); [congruence|]. lia.
Qed.
Print Assumptions C67_paths.
(** The bound is reached for three points or more. *)
Theorem C67_bound_reached : forall es m s t, 3 <= m -> s <> t -> not_after es s t -> 0 < mult es s t -> walk es m (m - 1) (Essential s) (Essential t).
Proof.
  intros es m s t Hm N HA HM. assert (EI : inner m s t = m - 2) by (unfold inner; destruct (String.eqb_spec s t); [contradiction|lia]).
  assert (K : forall l, 1 <= l <= m - 2 -> walk es m l (Essential s) (inner_vertex m s t 0 l)).
  { induction l as [|l IH]; [lia|]. intros Hl. destruct l as [|l]; [apply (w_cons _ _ 0 _ (Essential s)); [constructor|left; now constructor]|].
    apply (w_cons _ _ (S l) _ (inner_vertex m s t 0 (S l))); [apply IH; lia|]. left. constructor; auto. lia. }
  replace (m - 1) with (S (m - 2)) by lia. apply (w_cons _ _ (m - 2) _ (inner_vertex m s t 0 (m - 2))); [apply K; lia|]. right. rewrite <- EI. now constructor.
Qed.
Print Assumptions C67_bound_reached.
Open Scope string_scope.
Example C67_nontrivial : walk [("a","b")] 4 3 (Essential "a") (Essential "b").
Proof. apply (C67_bound_reached _ 4); [lia|discriminate|exists 0, 1; vm_compute; auto|vm_compute; lia]. Qed.
Close Scope string_scope.

(** C67: every cycle has at least m + 1 edges.  A cycle that enters an edge runs through all of it, so it contains a whole loop or two edges. *)
Section Cycle.
  Variables (es : list (string * string)) (m : nat) (c : list svertex).
  Hypothesis Hm : 2 <= m.
  Hypothesis Two : forall u, In u c -> exists v w, v <> w /\ In v c /\ In w c /\ adjacent es m u v /\ adjacent es m u w.
  Lemma inner_pos s t : 1 <= inner m s t.
  Proof. unfold inner. destruct (String.eqb s t); lia. Qed.
  Definition before s t k l := if l =? 1 then Essential s else inner_vertex m s t k (l - 1).
  Definition after s t k l := if l =? inner m s t then Essential t else inner_vertex m s t k (l + 1).
  Lemma adj_inner s t k l w : adjacent es m (inner_vertex m s t k l) w -> w = before s t k l \/ w = after s t k l.
  Proof.
    unfold before, after. intros [H|H]; inversion H; subst; auto.
    - right. destruct (Nat.eqb_spec l (inner m s t)); [lia|]. now replace (l + 1) with (S l) by lia.
    - left. destruct (Nat.eqb_spec (S l0) 1); [lia|]. now replace (S l0 - 1) with l0 by lia.
    - right. now rewrite Nat.eqb_refl.
  Qed.
  Lemma both s t k l : In (inner_vertex m s t k l) c -> In (before s t k l) c /\ In (after s t k l) c.
  Proof.
    intros H. destruct (Two _ H) as (v & w & N & Hv & Hw & Av & Aw). apply adj_inner in Av, Aw.
    destruct Av as [Ev|Ev], Aw as [Ew|Ew]; rewrite <- Ev, <- Ew in *; auto; congruence.
  Qed.
  Lemma runs_up s t k l d : In (inner_vertex m s t k l) c -> l + d <= inner m s t -> In (inner_vertex m s t k (l + d)) c.
  Proof.
    intros H. induction d as [|d IH]; intros Hd; [now rewrite Nat.add_0_r|]. destruct (both s t k (l + d)) as [_ K]; [apply IH; lia|].
    unfold after in K. destruct (Nat.eqb_spec (l + d) (inner m s t)); [lia|]. now replace (l + S d) with (l + d + 1) by lia.
  Qed.
  Lemma runs_down s t k l d : In (inner_vertex m s t k l) c -> d < l -> In (inner_vertex m s t k (l - d)) c.
  Proof.
    intros H. induction d as [|d IH]; intros Hd; [now rewrite Nat.sub_0_r|]. destruct (both s t k (l - d)) as [K _]; [apply IH; lia|].
    unfold before in K. destruct (Nat.eqb_spec (l - d) 1); [lia|]. now replace (l - S d) with (l - d - 1) by lia.
  Qed.
  Definition whole s t k := map (inner_vertex m s t k) (seq 1 (inner m s t)).
  Lemma runs_all s t k l : In (inner_vertex m s t k l) c -> 1 <= l -> incl (whole s t k) c /\ In (Essential s) c /\ In (Essential t) c.
  Proof.
    intros H Hl. pose proof (runs_down s t k l (l - 1) H ltac:(lia)) as H1. replace (l - (l - 1)) with 1 in H1 by lia.
    assert (forall l', 1 <= l' <= inner m s t -> In (inner_vertex m s t k l') c) as HA.
    { intros l' Hl'. replace l' with (1 + (l' - 1)) by lia. apply runs_up; [exact H1|lia]. }
    split; [|split].
    - intros u Hu. apply in_map_iff in Hu as (l' & <- & Hl'). apply in_seq in Hl'. apply HA. lia.
    - destruct (both _ _ _ _ H1) as [K _]. exact K.
    - pose proof (inner_pos s t). destruct (both _ _ _ _ (HA (inner m s t) ltac:(lia))) as [_ K]. unfold after in K. now rewrite Nat.eqb_refl in K.
  Qed.
  Lemma adj_label x w : adjacent es m (Essential x) w -> exists s t k l, w = inner_vertex m s t k l /\ 1 <= l /\ (s = x /\ l = 1 \/ t = x /\ l = inner m s t).
  Proof.
    intros [H|H]; inversion H; subst; do 4 eexists; (split; [reflexivity|]); [split; [lia|auto]|split; [apply inner_pos|auto]].
  Qed.
  Lemma whole_NoDup s t k : NoDup (whole s t k).
  Proof. apply FinFun.Injective_map_NoDup; [intros a b E; now injection E|apply seq_NoDup]. Qed.
  Lemma whole_length s t k : List.length (whole s t k) = inner m s t.
  Proof. unfold whole. now rewrite map_length, seq_length. Qed.
  Lemma whole_label s t k x : ~ In (Essential x) (whole s t k).
  Proof. intros H. apply in_map_iff in H as (l & E & _). discriminate. Qed.
  Lemma loop_long s k : incl (whole s s k) c -> In (Essential s) c -> m + 1 <= List.length c.
  Proof.
    intros H1 H2. assert (NoDup (Essential s :: whole s s k)) as ND by (constructor; [apply whole_label|apply whole_NoDup]).
    apply NoDup_incl_length with (l' := c) in ND; [|intros u [<-|Hu]; [exact H2|now apply H1]]. cbn [List.length] in ND. rewrite whole_length in ND.
    unfold inner in ND. rewrite String.eqb_refl in ND. lia.
  Qed.
  Lemma ring_long u : In u c -> m + 1 <= List.length c.
  Proof.
    intros Hu. assert (exists x, In (Essential x) c) as (x & Hx).
    { destruct (Two _ Hu) as (v & _ & _ & Hv & _ & Av & _). destruct Av as [H|H]; inversion H; subst; eauto.
      - destruct (runs_all _ _ _ _ Hu ltac:(lia)) as (_ & K & _). eauto.
      - destruct (runs_all _ _ _ _ Hv ltac:(lia)) as (_ & K & _). eauto. }
    destruct (Two _ Hx) as (v & w & N & Hv & Hw & Av & Aw). apply adj_label in Av as (s & t & k & l & -> & Hl & Cv), Aw as (s' & t' & k' & l' & -> & Hl' & Cw).
    destruct (runs_all _ _ _ _ Hv Hl) as (A1 & A2 & A3), (runs_all _ _ _ _ Hw Hl') as (B1 & B2 & B3).
    destruct (String.eqb_spec s t) as [->|N1]; [now apply (loop_long t k)|]. destruct (String.eqb_spec s' t') as [->|N2]; [now apply (loop_long t' k')|].
    assert (NoDup (Essential s :: Essential t :: whole s t k ++ whole s' t' k')) as ND.
    { constructor; [|constructor].
      - intros [E|E]; [congruence|]. apply in_app_iff in E as [E|E]; now apply whole_label in E.
      - intros E. apply in_app_iff in E as [E|E]; now apply whole_label in E.
      - assert (forall a, In a (whole s t k) -> ~ In a (whole s' t' k')) as Dj.
        { intros a Ha Hb. apply in_map_iff in Ha as (i & <- & _), Hb as (j & E & _). injection E as -> -> -> _ _. apply N.
          destruct Cv as [[C1 C2]|[C1 C2]], Cw as [[D1 D2]|[D1 D2]]; subst; congruence. }
        pose proof (whole_NoDup s t k) as W1. pose proof (whole_NoDup s' t' k') as W2. revert W1 Dj. generalize (whole s t k). induction l0 as [|a l0 IH]; intros W1 Dj; [exact W2|].
        cbn. inversion W1; subst. constructor; [rewrite in_app_iff; intros [K|K]; [easy|]; apply (Dj a); [now left|exact K]|]. apply IH; [easy|]. intros b Hb. apply Dj. now right. }
    apply NoDup_incl_length with (l' := c) in ND.
    - cbn [List.length] in ND. rewrite app_length, !whole_length in ND. unfold inner in ND. destruct (String.eqb_spec s t), (String.eqb_spec s' t'); try congruence. lia.
    - intros a [<-|[<-|Ha]]; [exact A2|exact A3|]. apply in_app_iff in Ha as [Ha|Ha]; auto.
  Qed.
End Cycle.
Theorem C67_cycles : forall es m c, 2 <= m -> cycle es m c -> m + 1 <= List.length c.
Proof.
  intros es m c Hm (ND & HL & HA). set (n := List.length c) in *.
  destruct c as [|u0 c']; [cbn in HL; lia|]. apply (ring_long es m (u0 :: c') Hm) with (u := u0); [|now left]. intros u Hu. apply In_nth_error in Hu as (i & Hi).
  assert (i < n) as Li by (apply nth_error_Some; congruence).
  assert (forall j, j < n -> exists v, nth_error (u0 :: c') j = Some v) as Hn.
  { intros j Hj. destruct (nth_error (u0 :: c') j) eqn:E; [eauto|]. apply nth_error_None in E. fold n in E. lia. }
  destruct (Hn ((i + 1) mod n)) as (v & Hv); [apply Nat.mod_upper_bound; lia|]. set (p := (i + (n - 1)) mod n).
  assert (p < n) as Lp by (apply Nat.mod_upper_bound; lia). destruct (Hn p Lp) as (w & Hw).
  assert ((p + 1) mod n = i) as Ep.
  { unfold p. rewrite Nat.add_mod_idemp_l by lia. replace (i + (n - 1) + 1) with (i + 1 * n) by lia. rewrite Nat.mod_add by lia. now apply Nat.mod_small. }
  exists v, w. split; [|split; [|split; [|split]]].
  - intros <-. assert ((i + 1) mod n = p) as E by (apply (proj1 (NoDup_nth_error _) ND); [apply Nat.mod_upper_bound; lia|congruence]).
    destruct (Nat.eq_dec i (n - 1)) as [->|Ni].
    + replace (n - 1 + 1) with n in E by lia. rewrite Nat.mod_same in E by lia. unfold p in E. replace (n - 1 + (n - 1)) with (n - 2 + 1 * n) in E by lia. rewrite Nat.mod_add, Nat.mod_small in E by lia. lia.
    + rewrite Nat.mod_small in E by lia. unfold p in E. destruct i as [|i]; [rewrite Nat.mod_small in E by lia; lia|]. replace (S i + (n - 1)) with (i + 1 * n) in E by lia. rewrite Nat.mod_add, Nat.mod_small in E by lia. lia.
  - now apply nth_error_In in Hv.
  - now apply nth_error_In in Hw.
  - now apply (HA i).
  - assert (adjacent es m w u) as A by (apply (HA p); [exact Hw|now rewrite Ep]). destruct A; [right|left]; assumption.
Qed.
Print Assumptions C67_cycles.
Open Scope string_scope.
(** A loop subdivided for two points is a triangle; it meets the bound. *)
Example C67_cycles_nontrivial : let i := inner_vertex 2 "a" "a" 0 in cycle [("a","a")] 2 [Essential "a"; i 1; i 2].
Proof.
  cbn zeta. assert (not_after [("a","a")] "a" "a") as NA by (exists 0, 0; vm_compute; auto). assert (0 < mult [("a","a")] "a" "a") as M by (vm_compute; lia).
  split; [|split; [cbn; lia|]].
  - repeat apply NoDup_cons; [cbn; unfold inner_vertex; intros H; repeat destruct H as [H|H]; try discriminate; contradiction..|apply NoDup_nil].
  - intros [|[|[|i]]] u v Hu Hv; cbn in Hu, Hv; try (destruct i; discriminate); injection Hu as <-; injection Hv as <-.
    + left. now constructor.
    + left. constructor; auto; unfold inner; cbn; lia.
    + right. apply (s_last _ 2 "a" "a" 0 NA M).
Qed.
Close Scope string_scope.
