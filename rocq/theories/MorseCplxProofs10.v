(** Subdivided trees have room at the leaves. *)
From Coq Require Import String List Arith ZArith Bool Lia Sorted Permutation.
From Verif Require Import PidModel SnfModel GraphModel GraphSpec GraphProofs GraphProofs3 GraphProofs5 GraphProofs6 GraphProofs7 GraphProofs8 GraphProps LabGraphModel LabGraphSpec SubdivSpec SubdivProofs SubdivProofs2 SubdivProps
  CubeModel CubeSpec MorseModel MorseSpec MorseProofs MorseProofs4 CubeProps MorseCplxSpec MorseCplxProofs3.
Import ListNotations.
Open Scope nat_scope.
Open Scope list_scope.

Section Sub.
Variables (es : list (string * string)) (m : nat) (L : list svertex) (g : rawg).
Hypothesis Hm : 2 <= m.
Hypothesis HA : AR g.
Hypothesis D : describes es m L (edge g).
Hypothesis HL : List.length L = g_n g.
Hypothesis HB : base_like (g_n g) (edge g) 0.
Hypothesis HT : forall x y, x < y -> edge g x y = true -> tree_edge g x y.
Lemma tree_leaf z l w : special g z -> leaf g w -> descends g z l w -> l <> [] -> m <= List.length l + 1.
Proof.
  intros SZ (Lw & LF) HD Nl. destruct (special_label es m L g Hm HA D HL HB z SZ) as (s & Hs). destruct (descends_lt g HA _ _ _ HD) as (_ & HB2 & K). specialize (K Nl). unfold g_n_vertices in Lw. destruct (L_nth es m L g Hm D HL w Lw) as (u & Hu & V). destruct u as [t|a b k i q].
  - pose proof (descends_walk es m L g Hm HA D HL _ _ _ _ _ HD Hs Hu) as W. assert (s <> t) as N. { intros ->. pose proof (L_inj es m L g D _ _ _ Hs Hu). lia. } pose proof (C67_paths es m s t _ Hm N W). lia.
  - exfalso. inversion V as [|? ? ? ? HN Hk Hi]; subst. destruct (inner_two es m a b k i Hm HN Hk Hi) as (N & A1 & A2). destruct (inner_vertices es m a b k i Hm HN Hk Hi) as (V1 & V2).
    apply D in V1, V2. apply In_nth_error in V1 as (x & Hx), V2 as (y & Hy). apply (L_adj es m L g D w x _ _ Hu Hx) in A1. apply (L_adj es m L g D w y _ _ Hu Hy) in A2.
    assert (Nxy : x <> y) by (intros ->; congruence). destruct (has_parent g HA w) as (p & C); [lia|exact Lw|].
    assert (exists e, e <> p /\ edge g w e = true) as (e & Ne & Ee). { destruct (Nat.eq_dec x p) as [->|]; [exists y; auto|exists x; auto]. }
    destruct (Nat.lt_trichotomy e w) as [Le|[->|G]]; [|now rewrite edge_irrefl in Ee|apply (LF e); now apply HT]. rewrite edge_sym in Ee. pose proof (HT e w Le Ee) as T. apply (te_child g HA) in T. apply Ne. now apply (child_unique g _ _ w).
Qed.
End Sub.
Lemma tree_roomy es gr n sg : graph_from es = Some gr -> subdivided_graph_from gr n = Some sg -> connected (g_n_vertices (sg_data sg)) (edge (sg_data sg)) ->
  (forall x y, x < y -> edge (sg_data sg) x y = true -> tree_edge (sg_data sg) x y) -> roomy (sg_data sg) n.
Proof.
  intros E ES HC HT. pose proof (arranged_AR _ (ar_sub es gr n sg E ES HC)) as HA. destruct (C66_subdivision es gr n sg E ES) as (D & _ & HL & _). cbn zeta in D. set (m := Nat.max n 2) in *.
  destruct (sub_made gr n sg es E ES) as (g & p & HG & ET). pose proof (tree_base g _ p HG ET) as HB. intros z l w SP HD Nl LF.
  assert (m <= List.length l + 1) by (apply (tree_leaf es m (sg_list sg) (sg_data sg)) with (z := z) (w := w); auto; lia). lia.
Qed.
