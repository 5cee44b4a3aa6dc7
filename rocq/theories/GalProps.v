(** C126: Euler characteristic of the configuration complex. *)
From Coq Require Import List Arith ZArith Bool Lia ZifyBool ZifyNat Permutation Sorted String.
From Verif Require Import UtilModel PidModel MatModel MatSpec MatProofs GraphModel GraphSpec GraphProofs GraphProofs2 GraphProofs5 GraphProofs8 GraphProps LabGraphModel LabGraphSpec LabGraphProofs LabGraphProofs2 LabGraphProps SubdivSpec SubdivProofs SubdivProofs2 SubdivProps CubeModel CubeSpec CubeProofs CubeProofs2 CubeProofs3 CubeProps CubeProofs4 CubeProofs5 CubePartialModel CubeProofs6 CubeProofs7 CubeProps2.
From Verif Require Import GalSpec GalProofs GalProofs2 GalProofs3 GalProofs4 GalProofs5.
Import ListNotations.
Open Scope nat_scope.

(** Positions in a list without repetition. *)
Fixpoint idx (u : svertex) (L : list svertex) : nat := match L with [] => 0 | v :: L => if sv_dec u v then 0 else S (idx u L) end.
Lemma idx_nth u L : In u L -> nth_error L (idx u L) = Some u.
Proof. induction L as [|v L IH]; intros []; cbn [idx]; destruct (sv_dec u v) as [->|N]; try reflexivity; [subst; contradiction|now apply IH]. Qed.
Lemma idx_unique u L x : NoDup L -> nth_error L x = Some u -> idx u L = x.
Proof. intros ND E. apply (proj1 (NoDup_nth_error L) ND); [apply nth_error_Some; rewrite idx_nth; [discriminate|now apply nth_error_In in E]|]. rewrite idx_nth; [now symmetry|now apply nth_error_In in E]. Qed.

Lemma edge_comm g x y : edge g x y = edge g y x.
Proof. unfold edge. now rewrite Nat.min_comm, Nat.max_comm. Qed.
Section Sub.
  Variables (es : list (string * string)) (m : nat).
  Hypothesis Hm : 2 <= m.
  Notation E := (flat_map (key_edges (registered es) m) (keys es)).
  Lemma snd_inner u v : step es m u v -> exists s t k l, v = inner_vertex m s t k l.
  Proof. intros [ | | ]; eauto. Qed.
  Lemma step_antisym u v : step es m u v -> ~ step es m v u.
  Proof. intros H K. destruct H; inversion K; subst; lia. Qed.
  Lemma E_NoDup : NoDup E.
  Proof.
    apply NoDup_flat_map; [apply keys_NoDup| |].
    - intros [[i j] k] Hq. apply in_keys in Hq. unfold key_edges, chain_edges. set (mid := if i =? j then m else Nat.max (m - 2) 1). set (s := nth i (registered es) EmptyString). set (t := nth j (registered es) EmptyString). set (den := if i =? j then m + 1 else m - 1).
      assert (Hmid : 1 <= mid) by (unfold mid; destruct (i =? j); lia). constructor.
      + intros K. apply in_app_iff in K as [K|[K|[]]]; [apply in_map_iff in K as (l & [=] & _)|]. injection K as K1 K2. subst mid. destruct (Nat.eqb_spec i j) as [->|N]; [lia|]. apply N. symmetry. apply (lab_inj es); [lia..|exact K1].
      + apply NoDup_app_disj; [apply FinFun.Injective_map_NoDup; [intros a b Q; now injection Q|apply seq_NoDup]|constructor; [intros []|constructor]|]. intros z K1 [<-|[]]. apply in_map_iff in K1 as (l & [=] & _).
    - assert (SN : forall i j k e, In e (key_edges (registered es) m (i, j, k)) -> exists l, snd e = Redundant (nth i (registered es) EmptyString) (nth j (registered es) EmptyString) k l (if i =? j then m + 1 else m - 1)).
      { intros i j k e. unfold key_edges, chain_edges. intros [<-|K]; [eexists; reflexivity|]. apply in_app_iff in K as [K|[<-|[]]]; [apply in_map_iff in K as (l & <- & _)|]; eexists; reflexivity. }
      intros [[i j] k] [[i' j'] k'] e H1 H2 K1 K2. apply in_keys in H1, H2. apply SN in K1, K2. destruct K1 as (l & K1), K2 as (l' & K2). rewrite K1 in K2. injection K2 as Q1 Q2 Q3 _ _. apply (lab_inj es) in Q1; [|lia..]. apply (lab_inj es) in Q2; [|lia..]. now subst.
  Qed.
  Variables (L : list svertex) (g : rawg).
  Hypothesis HG : GI g.
  Hypothesis HD : describes es m L (edge g).
  Hypothesis HL : List.length L = g_n_vertices g.
  Let V := sub_list es m.
  Let pos u := idx u L.
  Lemma V_L u : In u V <-> In u L.
  Proof. unfold V. destruct HD as (_ & H & _). rewrite H. apply (sub_list_iff es m Hm). Qed.
  Lemma sub_pos_inj u v : In u V -> In v V -> pos u = pos v -> u = v.
  Proof. intros Hu Hv K. apply V_L in Hu, Hv. apply idx_nth in Hu, Hv. unfold pos in K. rewrite K in Hu. congruence. Qed.
  Lemma step_in u v : step es m u v -> In u V /\ In v V.
  Proof.
    intros H. assert (IV : SubdivSpec.is_vertex es m u /\ SubdivSpec.is_vertex es m v); [|unfold V; now rewrite !(sub_list_iff es m Hm)].
    assert (I1 : forall s t, 1 <= inner m s t) by (intros s t; unfold inner; destruct (String.eqb s t); lia).
    assert (ME : forall s t k, not_after es s t -> k < mult es s t -> mentions es s /\ mentions es t).
    { intros s t k (i & j & _ & E1 & E2) _. split; apply registered_in; [now apply nth_error_In in E1|now apply nth_error_In in E2]. }
    destruct H as [s t k Hn Hk|s t k l Hn Hk Hl|s t k Hn Hk]; destruct (ME s t k Hn Hk) as [M1 M2]; split; constructor; auto; try lia; specialize (I1 s t); lia.
  Qed.
  Lemma sub_inV : inV V E.
  Proof. intros a b H. apply (sub_edges_iff es m Hm) in H. destruct (step_in a b H) as [Ha Hb]. split; [exact Ha|]. split; [exact Hb|]. intros ->. exact (step_antisym b b H H). Qed.
  Lemma sub_simple : simpleE pos E.
  Proof.
    pose proof E_NoDup as ND. pose proof sub_inV as HI. assert (HS : forall a b, In (a, b) E -> step es m a b) by (intros a b; apply (sub_edges_iff es m Hm)). revert ND HI HS. generalize E as l. induction l as [|[a b] l IH]; intros ND HI HS; constructor.
    - inversion ND as [|? ? Na ND']; subst. apply Forall_forall. intros [a' b'] H' K. cbn [fst snd] in K. unfold fe in K. injection K as K1 K2. destruct (HI a b (or_introl eq_refl)) as (Ha & Hb & _), (HI a' b' (or_intror H')) as (Ha' & Hb' & _).
      assert (K : (pos a = pos a' /\ pos b = pos b') \/ (pos a = pos b' /\ pos b = pos a')) by lia. destruct K as [[Q1 Q2]|[Q1 Q2]]; apply sub_pos_inj in Q1; auto; apply sub_pos_inj in Q2; auto; subst; [contradiction|]. apply (step_antisym b' a'); apply HS; [now left|now right].
    - inversion ND; subst. apply IH; [assumption|intros x y H; apply HI; now right|intros x y H; apply HS; now right].
  Qed.
  Lemma sub_cells f : cellOK V pos E (fun _ => true) f <-> closed_cell g f.
  Proof.
    destruct HD as (ND & DV & DE).
    assert (PL : forall u, In u V -> pos u < g_n_vertices g /\ nth_error L (pos u) = Some u).
    { intros u Hu. apply V_L in Hu. pose proof (idx_nth u L Hu) as K. split; [|exact K]. rewrite <- HL. apply nth_error_Some. unfold pos. congruence. }
    split.
    - intros [(v & Hv & _ & ->)|(a & b & Hab & _ & _ & ->)]; [exact (proj1 (PL v Hv))|]. destruct (sub_inV a b Hab) as (Ha & Hb & N). apply (sub_edges_iff es m Hm) in Hab.
      assert (NP : pos a <> pos b) by (intros K; apply N, sub_pos_inj; auto). assert (EE : edge g (pos a) (pos b) = true) by (apply (DE _ _ a b); [apply PL, Ha|apply PL, Hb|now left]).
      unfold fe. cbn [closed_cell]. split; [lia|]. destruct (Nat.le_ge_cases (pos a) (pos b)); [rewrite Nat.min_l, Nat.max_r by lia; exact EE|rewrite Nat.min_r, Nat.max_l by lia; rewrite edge_comm; exact EE].
    - destruct f as [x y|x]; cbn [closed_cell].
      + intros [Hxy Exy]. destruct (edge_lt g x y HG Exy) as (Hx & Hy & _). unfold g_n_vertices in HL. destruct (nth_error L x) as [u|] eqn:Eu; [|apply nth_error_None in Eu; lia]. destruct (nth_error L y) as [v|] eqn:Ev; [|apply nth_error_None in Ev; lia].
        pose proof (idx_unique u L x ND Eu) as Pu. pose proof (idx_unique v L y ND Ev) as Pv. right. apply (DE x y u v Eu Ev) in Exy. destruct Exy as [S|S]; [exists u, v|exists v, u]; (split; [now apply (sub_edges_iff es m Hm)|]); (split; [reflexivity|]); (split; [reflexivity|]); unfold fe, pos; rewrite Pu, Pv; f_equal; lia.
      + intros Hx. destruct (nth_error L x) as [u|] eqn:Eu; [|apply nth_error_None in Eu; lia]. left. exists u. split; [apply V_L; now apply nth_error_In in Eu|]. split; [reflexivity|]. unfold fv, pos. now rewrite (idx_unique u L x ND Eu).
  Qed.
End Sub.

(** The alternating sum of the numbers of cells of the complex the library builds for [n] points on a connected graph is the Euler
    characteristic of the space of [n] points on that graph; it does not depend on how the graph was subdivided and numbered. *)
Theorem C126_euler : forall es gr n sg c, graph_from es = Some gr -> subdivided_graph_from gr n = Some sg -> connected (g_n_vertices (sg_data sg)) (edge (sg_data sg)) -> 1 <= n ->
  udc gr n = Some c -> alternating (c_ranks c) = gal es n.
Proof.
  intros es gr n sg c E ES HC Hn EU. destruct (C56_udc es gr n sg E ES HC Hn) as (c' & EU' & HE). rewrite EU in EU'. injection EU' as <-.
  destruct (C66_subdivision es gr n sg E ES) as (HD & _ & HL & _ & _). set (m := Nat.max n 2) in *. assert (Hm : 2 <= m) by lia.
  destruct (sub_made gr n sg es E ES) as (g & p & HG & ET). pose proof (maximal_tree_spec g HG) as HM. rewrite ET in HM. destruct HM as (_ & R & _). pose proof (GraphProofs5.L_GI _ _ _ R) as HGs.
  assert (NDV : NoDup (sub_list es m)). { pose proof (sub_spec es gr n E (from_nil_not _ _ _ _ E ES)) as HS. cbn zeta in HS. destruct HS as (g0 & _ & _ & _ & D & _). apply D. }
  change (sub_list es m) with (L0 es ++ II es m) in NDV.
  rewrite (count_gen sv_dec (L0 es ++ II es m) (fun u => idx u (sg_list sg)) (flat_map (key_edges (registered es) m) (keys es)) NDV) with (g := sg_data sg) (n := n).
  - apply gal_keys; [reflexivity|exact NDV].
  - intros u v. eapply (sub_pos_inj es m Hm (sg_list sg) (sg_data sg)); eassumption.
  - eapply (sub_inV es m Hm (sg_list sg) (sg_data sg)); eassumption.
  - eapply (sub_simple es m Hm (sg_list sg) (sg_data sg)); eassumption.
  - exact HE.
  - apply (sub_cells es m Hm (sg_list sg) (sg_data sg) HGs HD HL).
Qed.
Print Assumptions C126_euler.
