(** Lemmas for FvecProps: the numbers of cells of a configuration complex. *)
From Coq Require Import List Arith ZArith Bool Lia ZifyBool ZifyNat Permutation Sorted.
From Verif Require Import PidModel MatModel MatSpec GraphModel GraphSpec CubeModel CubeSpec CubeProofs CubeProofs2 CubeProofs3 CubeProps CubeProofs4 CubeProofs5 CubeProofs7.
From Verif Require Import LabGraphProofs2 GalSpec GalProofs GalProofs2 GalProofs4 GalProofs5 FvecSpec.
Import ListNotations.
Open Scope nat_scope.

Definition cnt {A} (p : A -> bool) (l : list A) : nat := List.length (filter p l).
Lemma cnt_app {A} (p : A -> bool) l l' : cnt p (l ++ l') = cnt p l + cnt p l'.
Proof. unfold cnt. now rewrite filter_app, app_length. Qed.
Lemma cnt_map {A B} (p : B -> bool) (f : A -> B) l : cnt p (map f l) = cnt (fun x => p (f x)) l.
Proof. unfold cnt. induction l as [|x l IH]; [reflexivity|]. cbn. destruct (p (f x)); cbn; now rewrite IH. Qed.
Lemma cnt_ext {A} (p q : A -> bool) l : (forall x, In x l -> p x = q x) -> cnt p l = cnt q l.
Proof. intros H. unfold cnt. f_equal. now apply filter_ext_in. Qed.
Lemma cnt_false {A} (l : list A) : cnt (fun _ => false) l = 0.
Proof. unfold cnt. induction l; [reflexivity|assumption]. Qed.
Lemma cnt_perm {A} (p : A -> bool) l l' : Permutation l l' -> cnt p l = cnt p l'.
Proof. intros H. unfold cnt. induction H; cbn; try destruct (p x); try destruct (p y); cbn; congruence. Qed.

Definition shape (k n : nat) (c : list factor) : bool := (dimension c =? k) && (List.length c =? n).
Lemma dim_vertex x c : dimension (FVertex x :: c) = dimension c. Proof. reflexivity. Qed.
Lemma dim_edge x y c : dimension (FEdge x y :: c) = S (dimension c). Proof. reflexivity. Qed.

Lemma binom_0 n : binom n 0 = 1. Proof. now destruct n. Qed.
Lemma cnt_gV {A} (pos : A -> nat) l : forall k n, cnt (shape k n) (gV pos l) = if k =? 0 then binom (List.length l) n else 0.
Proof.
  induction l as [|v l IH]; intros k n; cbn [gV].
  - unfold cnt, shape. cbn. destruct k; [|reflexivity]. destruct n; reflexivity.
  - rewrite cnt_app, cnt_map, IH. destruct n as [|n].
    + rewrite (cnt_ext _ (fun _ => false)) by (intros c _; unfold shape; cbn [List.length]; lia). rewrite cnt_false, !binom_0. destruct k; reflexivity.
    + rewrite (cnt_ext _ (shape k n)) by (intros c _; unfold shape, fv; rewrite dim_vertex; cbn [List.length]; reflexivity). rewrite IH. cbn [List.length binom]. destruct k; cbn [Nat.eqb]; lia.
Qed.

Section N.
  Notation del := (GalProofs2.del Nat.eq_dec).
  Variable V : list nat.
  Hypothesis NDV : NoDup V.
  Notation ident := (fun v : nat => v).
  (** Matchings between available vertices. *)
  Definition okm (av : nat -> bool) (m : list (nat * nat)) : bool := is_matching m && forallb (fun e => av (fst e) && av (snd e)) m.
  Definition nm (E : list (nat * nat)) (av : nat -> bool) (k : nat) : nat := cnt (okm av) (choose k E).
  Definition size (av : nat -> bool) : nat := List.length (filter av V).
  Lemma nm_0 E av : nm E av 0 = 1.
  Proof. destruct E; reflexivity. Qed.
  Lemma forallb_and {B} (p q : B -> bool) l : forallb (fun x => p x && q x) l = forallb p l && forallb q l.
  Proof. induction l as [|x l IH]; [reflexivity|]. cbn. rewrite IH. destruct (p x), (q x), (forallb p l), (forallb q l); reflexivity. Qed.
  Lemma nm_S a b E av k : nm ((a, b) :: E) av (S k) = (if av a && av b then nm E (del a (del b av)) k else 0) + nm E av (S k).
  Proof.
    unfold nm. cbn [choose]. rewrite cnt_app, cnt_map. f_equal. destruct (av a && av b) eqn:AB.
    - apply cnt_ext. intros m _. unfold okm. cbn [is_matching forallb fst snd]. rewrite AB. cbn [andb].
      assert (Q : forallb (apart (a, b)) m && forallb (fun e => av (fst e) && av (snd e)) m = forallb (fun e => del a (del b av) (fst e) && del a (del b av) (snd e)) m).
      { rewrite <- forallb_and. clear. induction m as [|[x y] m IH]; [reflexivity|]. cbn [forallb]. rewrite IH. f_equal. unfold apart, GalProofs2.del. cbn [fst snd].
        destruct (Nat.eq_dec x a), (Nat.eq_dec x b), (Nat.eq_dec y a), (Nat.eq_dec y b); repeat (match goal with |- context [?u =? ?w] => destruct (Nat.eqb_spec u w); try (exfalso; lia) end); cbn; try reflexivity; try (now rewrite ?andb_false_r); lia. }
      rewrite <- Q. destruct (forallb (apart (a, b)) m), (is_matching m), (forallb (fun e => av (fst e) && av (snd e)) m); reflexivity.
    - rewrite (cnt_ext _ (fun _ => false)); [apply cnt_false|]. intros m _. unfold okm. cbn [is_matching forallb fst snd]. rewrite AB. now rewrite andb_false_r.
  Qed.
  Lemma size_del a av : In a V -> av a = true -> size av = S (size (del a av)).
  Proof.
    intros Ha Av. unfold size. clear -NDV Ha Av. induction V as [|v l IH]; [destruct Ha|]. inversion NDV as [|? ? Nv ND]; subst. cbn [filter]. unfold GalProofs2.del at 1. destruct (Nat.eq_dec v a) as [->|N].
    - rewrite Av. cbn [List.length]. f_equal. f_equal. apply filter_ext_in. intros x Hx. unfold GalProofs2.del. destruct (Nat.eq_dec x a) as [->|]; [contradiction|reflexivity].
    - destruct Ha as [Ha|Ha]; [congruence|]. specialize (IH ND Ha). destruct (av v); cbn [List.length]; lia.
  Qed.
  Lemma cnt_gE E : inV V E -> forall av k n, k <= n -> cnt (shape k n) (gE Nat.eq_dec V ident E av) = nm E av k * binom (size av - 2 * k) (n - k).
  Proof.
    induction E as [|[a b] E IH]; intros HE av k n Hk; cbn [gE].
    - rewrite cnt_gV. destruct k as [|k]; [|reflexivity]. rewrite nm_0. cbn [Nat.eqb Nat.mul]. rewrite !Nat.sub_0_r. unfold size. lia.
    - rewrite cnt_app, (IH (inV_tl _ _ _ HE) av k n Hk). destruct (HE a b (or_introl eq_refl)) as (Ha & Hb & Nab). destruct k as [|k].
      + rewrite !nm_0. replace (cnt (shape 0 n) _) with 0; [lia|]. destruct (av a && av b); [|reflexivity]. rewrite cnt_map. symmetry. rewrite (cnt_ext _ (fun _ => false)); [apply cnt_false|]. intros c _. reflexivity.
      + rewrite nm_S. destruct (av a && av b) eqn:AB; [|cbn [cnt filter List.length]; unfold cnt; cbn; lia]. apply andb_prop in AB. destruct AB as [Aa Ab].
        rewrite cnt_map. destruct n as [|n]; [lia|]. rewrite (cnt_ext _ (shape k n)) by (intros c _; reflexivity). rewrite (IH (inV_tl _ _ _ HE) (del a (del b av)) k n ltac:(lia)).
        assert (S1 : size av = S (size (del b av))) by (now apply size_del).
        assert (S2 : size (del b av) = S (size (del a (del b av)))) by (apply size_del; [exact Ha|]; unfold GalProofs2.del; destruct (Nat.eq_dec a b); [contradiction|exact Aa]).
        replace (size av - 2 * S k) with (size (del a (del b av)) - 2 * k) by lia. replace (S n - S k) with (n - k) by lia. lia.
  Qed.
End N.

(** The cells of a complex that lists the configurations are, up to order, the sets of edges and vertices. *)
Section Count.
  Context {A : Type} (dec : forall x y : A, {x = y} + {x <> y}) (V : list A) (pos : A -> nat) (E : list (A * A)).
  Hypothesis NDV : NoDup V.
  Hypothesis pos_inj : forall u v, In u V -> In v V -> pos u = pos v -> u = v.
  Hypothesis HE : inV V E.
  Hypothesis SE : simpleE pos E.
  Variables (g : rawg) (n : nat) (c : cplx).
  Hypothesis HC : enumerates g n c.
  Hypothesis cells : forall f, cellOK V pos E (fun _ => true) f <-> closed_cell g f.
  Lemma count_perm : Permutation (map (cellof c) (c_final c)) (map f_sort (filter (fun c => List.length c =? n) (gE dec V pos E (fun _ => true)))).
  Proof.
    set (G := filter (fun c => List.length c =? n) (gE dec V pos E (fun _ => true))).
    assert (GC : forall l, In l G -> configuration g n l).
    { intros l Hl. apply filter_In in Hl. destruct Hl as [Hl Ln]. apply Nat.eqb_eq in Ln. destruct (gE_sound dec V NDV pos pos_inj E HE _ l Hl) as [F P]. split; [exact Ln|]. split; [|exact P]. eapply Forall_impl; [|exact F]. intros f. apply cells. }
    assert (GD : ForallOrdPairs differ G).
    { unfold G. pose proof (gE_differ dec V NDV pos pos_inj E HE SE (fun _ => true)) as D. clear -D. induction D as [|x l F D IH]; cbn; [constructor|]. destruct (List.length x =? n); [|exact IH]. constructor; [|exact IH]. rewrite Forall_forall in *. intros y Hy. apply filter_In in Hy. now apply F. }
    apply NoDup_Permutation.
    - pose proof (proj1 HC) as ND. assert (CI : forall i j, In i (c_final c) -> In j (c_final c) -> cellof c i = cellof c j -> i = j) by (apply (cell_inj g n c HC)). revert CI. induction ND as [|i l Ni ND IH]; intros CI; cbn [map]; constructor.
      + intros K. apply in_map_iff in K as (j & Ej & Hj). assert (j = i) by (apply CI; [now right|now left|exact Ej]). subst. contradiction.
      + apply IH. intros i' j' Hi Hj. apply CI; now right.
    - clear -GD. induction GD as [|x l F D IH]; cbn [map]; constructor; [|exact IH]. intros K. apply in_map_iff in K as (y & Ey & Hy). rewrite Forall_forall in F. apply (F y Hy). rewrite <- (f_sort_perm x), <- (f_sort_perm y). now rewrite Ey.
    - intros l. split.
      + intros Hl. apply in_map_iff in Hl as (i & <- & Hi). destruct (F_cell g n c HC i Hi) as (_ & (L & CC & PD) & LL & _).
        destruct (gE_complete dec V NDV pos pos_inj E HE (fun _ => true) (cellof c i) PD) as (l' & Hl' & P); [eapply Forall_impl; [|exact CC]; intros f; apply cells|].
        apply in_map_iff. exists l'. assert (In l' G) as HG by (apply filter_In; split; [exact Hl'|]; apply Nat.eqb_eq; rewrite <- (Permutation_length P); exact L). split; [|exact HG].
        apply listed_unique; [apply f_sort_listed; apply (GC l' HG)|exact LL|]. rewrite f_sort_perm. now symmetry.
      + intros Hl. apply in_map_iff in Hl as (l' & <- & Hl'). pose proof (GC l' Hl') as (L & CC & PD). destruct HC as (_ & H2 & H3 & _). destruct (H3 l' (conj L (conj CC PD))) as (i & l2 & Hi & Ei & P & _). apply in_map_iff. exists i. split; [|exact Hi].
        unfold cellof. rewrite Ei. destruct (H2 i Hi) as (l3 & E3 & _ & LL & _). rewrite Ei in E3. injection E3 as <-. apply listed_unique; [exact LL|now apply f_sort_listed|]. rewrite f_sort_perm. now symmetry.
  Qed.
End Count.

Lemma graph_edges_in g x y : In (x, y) (graph_edges g) <-> x < y /\ y < g_n_vertices g /\ edge g x y = true.
Proof.
  unfold graph_edges. rewrite filter_In, in_prod_iff, !in_seq. cbn [fst snd]. split; [|intros (H1 & H2 & H3); rewrite H3; split; lia]. intros [H1 H2]. apply andb_prop in H2. destruct H2 as [H2 H3]. split; [lia|]. split; [lia|exact H3].
Qed.
Lemma NoDup_prod {A B} (l : list A) (l' : list B) : NoDup l -> NoDup l' -> NoDup (list_prod l l').
Proof.
  intros H1 H2. induction H1 as [|x l Nx H1 IH]; cbn; [constructor|]. apply NoDup_app_disj; [|exact IH|].
  - apply FinFun.Injective_map_NoDup; [intros a b Q; now injection Q|exact H2].
  - intros z K1 K2. apply in_map_iff in K1 as (y & <- & _). apply in_prod_iff in K2. tauto.
Qed.
Lemma graph_edges_NoDup g : NoDup (graph_edges g).
Proof. apply NoDup_filter, NoDup_prod; apply seq_NoDup. Qed.

Section Main.
  Variables (g : rawg) (n : nat) (c : cplx).
  Hypothesis HC : enumerates g n c.
  Hypothesis Hlt : forall x y, edge g x y = true -> x < g_n_vertices g /\ y < g_n_vertices g.
  Notation V := (seq 0 (g_n_vertices g)).
  Notation ident := (fun v : nat => v).
  Lemma main_inV : inV V (graph_edges g).
  Proof. intros a b H. apply graph_edges_in in H. rewrite !in_seq. lia. Qed.
  Lemma main_simple : simpleE ident (graph_edges g).
  Proof.
    pose proof (graph_edges_NoDup g) as ND. assert (HL : forall a b, In (a, b) (graph_edges g) -> a < b) by (intros a b H; apply graph_edges_in in H; lia).
    revert ND HL. generalize (graph_edges g) as l. induction l as [|[a b] l IH]; intros ND HL; constructor.
    - inversion ND as [|? ? Na ND']; subst. apply Forall_forall. intros [a' b'] H' K. cbn [fst snd] in K. unfold fe in K. injection K as K1 K2. pose proof (HL a b (or_introl eq_refl)). pose proof (HL a' b' (or_intror H')).
      assert (a = a') by lia. assert (b = b') by lia. subst. contradiction.
    - inversion ND; subst. apply IH; [assumption|]. intros x y H. apply HL. now right.
  Qed.
  Lemma main_cells f : cellOK V ident (graph_edges g) (fun _ => true) f <-> closed_cell g f.
  Proof.
    split.
    - intros [(v & Hv & _ & ->)|(a & b & Hab & _ & _ & ->)]; [apply in_seq in Hv; cbn; lia|]. apply graph_edges_in in Hab. destruct Hab as (H1 & H2 & H3). unfold fe. cbn [closed_cell]. rewrite Nat.min_l, Nat.max_r by lia. auto.
    - destruct f as [x y|x]; cbn [closed_cell].
      + intros [Hxy Exy]. destruct (Hlt x y Exy). right. exists x, y. split; [apply graph_edges_in; auto|]. split; [reflexivity|]. split; [reflexivity|]. unfold fe. now rewrite Nat.min_l, Nat.max_r by lia.
      + intros Hx. left. exists x. split; [apply in_seq; lia|]. auto.
  Qed.
  Lemma main_count k : k <= n -> List.length (filter (fun l => dimension l =? k) (map (cellof c) (c_final c))) = n_matchings g k * binom (g_n_vertices g - 2 * k) (n - k).
  Proof.
    intros Hk. fold (cnt (fun l => dimension l =? k) (map (cellof c) (c_final c))).
    rewrite (cnt_perm _ _ _ (count_perm Nat.eq_dec V ident (graph_edges g) (seq_NoDup _ _) (fun u v _ _ H => H) main_inV main_simple g n c HC main_cells)).
    rewrite cnt_map. rewrite (cnt_ext _ (fun l => dimension l =? k)) by (intros l _; now rewrite (dimension_perm _ _ (f_sort_perm l))).
    unfold cnt at 1. transitivity (cnt (shape k n) (gE Nat.eq_dec V ident (graph_edges g) (fun _ => true))).
    { generalize (gE Nat.eq_dec V ident (graph_edges g) (fun _ => true)) as l. intros l. unfold cnt. f_equal. induction l as [|x l IH]; [reflexivity|]. cbn [filter]. unfold shape at 1. destruct (List.length x =? n); cbn [filter]; [|rewrite andb_false_r; exact IH]. rewrite andb_true_r. destruct (dimension x =? k); now rewrite IH. }
    rewrite (cnt_gE V (seq_NoDup _ _) _ main_inV _ k n Hk). f_equal.
    - unfold nm, n_matchings. apply cnt_ext. intros m _. unfold okm. replace (forallb _ m) with true; [apply andb_true_r|]. symmetry. apply forallb_forall. reflexivity.
    - f_equal. unfold size. replace (filter (fun _ => true) V) with V; [now rewrite seq_length|]. symmetry. generalize V as l. induction l as [|x l IH]; [reflexivity|]. cbn. now rewrite IH.
  Qed.
End Main.
