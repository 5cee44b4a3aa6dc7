(** The subdivided graph as vertices joined by chains; the cells of [udc] as its configurations. *)
From Coq Require Import List Arith ZArith Bool Lia ZifyBool ZifyNat Setoid Morphisms Ring Permutation Sorted String.
From Verif Require Import UtilModel PidModel MatModel MatSpec MatProofs GraphModel GraphSpec GraphProofs GraphProofs5 GraphProofs8 GraphProps LabGraphModel LabGraphSpec LabGraphProofs LabGraphProofs2 LabGraphProps SubdivSpec SubdivProofs SubdivProofs2 SubdivProps CubeModel CubeSpec CubeProofs CubeProofs2 CubeProofs3 CubeProps CubeProofs4 CubeProofs5 CubePartialModel CubeProofs6 CubeProofs7.
From Verif Require Import GalSpec GalProofs GalProofs2 GalProofs3 GalProofs4.
Import ListNotations.
Open Scope nat_scope.

(** Alternating sums of counts. *)
Lemma alternating_counts {A} (d : A -> nat) (l : list A) : forall m a,
  alternating (map (fun k => List.length (filter (fun x => d x =? k) l)) (seq a m)) = zsuml (map (fun x => if (a <=? d x) && (d x <? a + m) then sign (d x - a) else 0%Z) l).
Proof.
  induction m as [|m IH]; intros a.
  - cbn [seq map alternating fold_right]. induction l as [|x l IHl]; [reflexivity|]. cbn [map zsuml fold_right]. fold (zsuml (map (fun x => if (a <=? d x) && (d x <? a + 0) then sign (d x - a) else 0%Z) l)). rewrite <- IHl. replace ((a <=? d x) && (d x <? a + 0)) with false by lia. reflexivity.
  - cbn [seq map alternating fold_right]. fold (alternating (map (fun k => List.length (filter (fun x => d x =? k) l)) (seq (S a) m))). rewrite IH. clear IH. induction l as [|x l IHl]; [reflexivity|]. cbn [map zsuml fold_right filter].
    fold (zsuml (map (fun x => if (a <=? d x) && (d x <? a + S m) then sign (d x - a) else 0%Z) l)). rewrite <- IHl.
    fold (zsuml (map (fun x => if (S a <=? d x) && (d x <? S a + m) then sign (d x - S a) else 0%Z) l)).
    destruct (Nat.eqb_spec (d x) a) as [E|N]; cbn [List.length].
    + replace (a <=? d x) with true by lia. replace (S a <=? d x) with false by lia. replace (d x <? a + S m) with true by lia. cbn [andb]. rewrite E, Nat.sub_diag. change (sign 0) with 1%Z. lia.
    + destruct (Nat.le_gt_cases a (d x)) as [L|L].
      * replace (a <=? d x) with true by lia. replace (S a <=? d x) with true by lia. cbn [andb]. replace (S a + m) with (a + S m) by lia. replace (d x - a) with (S (d x - S a)) by lia. rewrite sign_S. destruct (d x <? a + S m); lia.
      * replace (a <=? d x) with false by lia. replace (S a <=? d x) with false by lia. cbn [andb]. lia.
Qed.
Lemma nth_error_ext_list {A} (l l' : list A) : (forall k, nth_error l k = nth_error l' k) -> l = l'.
Proof. revert l'. induction l as [|x l IH]; intros [|y l'] H; try reflexivity; [specialize (H 0); discriminate|specialize (H 0); discriminate|]. pose proof (H 0) as H0. injection H0 as ->. f_equal. apply IH. intros k. exact (H (S k)). Qed.
Lemma ranks_alternating g n c : enumerates g n c -> alternating (c_ranks c) = zsuml (map sgn (map (cellof c) (c_final c))).
Proof.
  intros HE. replace (c_ranks c) with (map (fun k => List.length (filter (fun i => dimo c i =? k) (c_final c))) (seq 0 (S n))).
  - rewrite alternating_counts, map_map. f_equal. apply map_ext_in. intros i Hi. destruct (F_cell g n c HE i Hi) as (_ & (L & _) & _ & _ & D). unfold sgn. rewrite <- D, Nat.sub_0_r.
    pose proof (dimension_le (cellof c i)). replace ((0 <=? dimo c i) && (dimo c i <? 0 + S n)) with true by lia. reflexivity.
  - apply nth_error_ext_list. intros k. rewrite (ranks_rk g n c HE). destruct (Nat.leb_spec k n).
    + rewrite nth_error_map, (nth_error_nth' _ 0) by (rewrite seq_length; lia). rewrite seq_nth by lia. reflexivity.
    + apply nth_error_None. rewrite map_length, seq_length. lia.
Qed.
Lemma zsuml_filter {A} (p : A -> bool) (f : A -> Z) l : zsuml (map f (filter p l)) = zsuml (map (fun x => if p x then f x else 0%Z) l).
Proof. unfold zsuml. induction l as [|x l IH]; [reflexivity|]. cbn [filter]. destruct (p x) eqn:E; cbn [map fold_right]; rewrite E, IH; lia. Qed.

(** The signed number of cells of a complex that lists the configurations. *)
Section Count.
  Context {A : Type} (dec : forall x y : A, {x = y} + {x <> y}) (V : list A) (pos : A -> nat) (E : list (A * A)).
  Hypothesis NDV : NoDup V.
  Hypothesis pos_inj : forall u v, In u V -> In v V -> pos u = pos v -> u = v.
  Hypothesis HE : inV V E.
  Hypothesis SE : simpleE pos E.
  Variables (g : rawg) (n : nat) (c : cplx).
  Hypothesis HC : enumerates g n c.
  Hypothesis cells : forall f, cellOK V pos E (fun _ => true) f <-> closed_cell g f.
  Lemma count_gen : alternating (c_ranks c) = W dec V E (fun _ => true) n.
  Proof.
    rewrite (ranks_alternating g n c HC). rewrite <- (ser_gE dec V pos E (fun _ => true) n). unfold ser.
    rewrite <- (zsuml_filter (fun c => List.length c =? n) sgn). set (G := filter (fun c => List.length c =? n) (gE dec V pos E (fun _ => true))).
    rewrite (map_ext_in sgn (fun l => sgn (f_sort l)) G) by (intros l _; unfold sgn; now rewrite (dimension_perm _ _ (f_sort_perm l))). rewrite <- (map_map f_sort sgn). apply zsuml_perm, Permutation_map.
    assert (GC : forall l, In l G -> configuration g n l).
    { intros l Hl. apply filter_In in Hl. destruct Hl as [Hl Ln]. apply Nat.eqb_eq in Ln. destruct (gE_sound dec V NDV pos pos_inj E HE _ l Hl) as [F P]. split; [exact Ln|]. split; [|exact P]. eapply Forall_impl; [|exact F]. intros f. apply cells. }
    assert (GD : ForallOrdPairs differ G).
    { unfold G. pose proof (gE_differ dec V NDV pos pos_inj E HE SE (fun _ => true)) as D. clear -D. induction D as [|x l F D IH]; cbn; [constructor|]. destruct (List.length x =? n); [|exact IH]. constructor; [|exact IH]. rewrite Forall_forall in *. intros y Hy. apply filter_In in Hy. now apply F. }
    apply NoDup_Permutation.
    - pose proof (proj1 HC) as ND. assert (CI : forall i j, In i (c_final c) -> In j (c_final c) -> cellof c i = cellof c j -> i = j) by (apply (cell_inj g n c HC)). revert CI. induction ND as [|i l Ni ND IH]; intros CI; cbn [map]; constructor.
      + intros K. apply in_map_iff in K as (j & Ej & Hj). assert (j = i) by (apply CI; [now right|now left|exact Ej]). subst. contradiction.
      + apply IH. intros i' j' Hi Hj. apply CI; now right.
    - clear -GD. induction GD as [|x l F D IH]; cbn [map]; constructor; [|exact IH]. intros K. apply in_map_iff in K as (y & Ey & Hy). rewrite Forall_forall in F. apply (F y Hy). rewrite <- (f_sort_perm x), <- (f_sort_perm y). now rewrite Ey.
    - intros l. split.
      + intros Hl. apply in_map_iff in Hl as (i & <- & Hi). destruct (F_cell g n c HC i Hi) as (_ & (L & CC & PD) & LL & _).
        destruct (gE_complete dec V NDV pos pos_inj E HE (fun _ => true) (cellof c i) PD) as (l' & Hl' & P); [eapply Forall_impl; [|exact CC]; intros f; apply cells|].
        apply in_map_iff. exists l'. assert (In l' G) as HG by (apply filter_In; split; [exact Hl'|]; apply Nat.eqb_eq; rewrite <- (Permutation_length P); exact L). split; [|exact HG].
        apply listed_unique; [apply f_sort_listed; apply (GC l' HG)|exact LL|]. rewrite f_sort_perm. now symmetry.
      + intros Hl. apply in_map_iff in Hl as (l' & <- & Hl'). pose proof (GC l' Hl') as (L & CC & PD). destruct HC as (_ & H2 & H3 & _). destruct (H3 l' (conj L (conj CC PD))) as (i & l2 & Hi & Ei & P & _). apply in_map_iff. exists i. split; [|exact Hi].
        unfold cellof. rewrite Ei. destruct (H2 i Hi) as (l3 & E3 & _ & LL & _). rewrite Ei in E3. injection E3 as <-. apply listed_unique; [exact LL|now apply f_sort_listed|]. rewrite f_sort_perm. now symmetry.
  Qed.
End Count.

(** ** The chains of a subdivided graph *)
Definition sv_dec (u v : svertex) : {u = v} + {u <> v}.
Proof. decide equality; (apply string_dec || apply Nat.eq_dec). Defined.
Lemma ce_chain s t k den mid : 1 <= mid -> chain_edges s t k den mid = ce (Essential s) (chain_vertices s t k den mid) (Essential t).
Proof.
  intros Hm. unfold chain_edges, chain_vertices. destruct mid as [|mid]; [lia|]. replace (S mid - 1) with mid by lia. cbn [seq map ce]. f_equal. clear Hm.
  assert (G : forall a, map (fun l => (Redundant s t k l den, Redundant s t k (S l) den)) (seq a mid) ++ [(Essential t, Redundant s t k (a + mid) den)] = ce (Redundant s t k a den) (map (fun l => Redundant s t k l den) (seq (S a) mid)) (Essential t)).
  { induction mid as [|mid IH]; intros a; [cbn; now rewrite Nat.add_0_r|]. cbn [seq map app ce]. f_equal. replace (a + S mid) with (S a + mid) by lia. apply IH. }
  apply (G 1).
Qed.
Section Keyed.
  Variables (es : list (string * string)) (m n : nat).
  Hypothesis Hm : m = Nat.max n 2.
  Let labels := registered es.
  Let lab i := nth i labels EmptyString.
  Definition kchain (q : nat * nat * nat) : svertex * svertex * list svertex :=
    (Essential (nth (fst (fst q)) (registered es) EmptyString), Essential (nth (snd (fst q)) (registered es) EmptyString), key_vertices (registered es) m q).
  Definition L0 : list svertex := map Essential (registered es).
  Definition II : list svertex := flat_map (key_vertices (registered es) m) (keys es).
  Hypothesis NDV : NoDup (L0 ++ II).
  Lemma key_len i j k : List.length (key_vertices labels m (i, j, k)) = if i =? j then m else Nat.max (m - 2) 1.
  Proof. unfold key_vertices, chain_vertices. now rewrite map_length, seq_length. Qed.
  Lemma kedges ks : incl ks (keys es) -> edges (map kchain ks) = flat_map (key_edges labels m) ks.
  Proof.
    induction ks as [|[[i j] k] ks IH]; intros HI; [reflexivity|]. cbn [map edges flat_map]. fold (edges (map kchain ks)). rewrite IH by (intros x Hx; apply HI; now right). f_equal.
    unfold kchain, c_s, c_t, c_in, key_vertices, key_edges. cbn [fst snd]. symmetry. apply ce_chain. destruct (i =? j); lia.
  Qed.
  Lemma kok ks : NoDup ks -> incl ks (keys es) -> ok sv_dec L0 II n (map kchain ks).
  Proof.
    intros ND HI. induction ND as [|[[i j] k] ks Nq ND IH]; cbn [map]; [constructor|]. assert (Hq : In (i, j, k) (keys es)) by (apply HI; now left). pose proof Hq as Hq'. apply in_keys in Hq'. fold labels in Hq'. destruct Hq' as (H1 & H2 & H3).
    constructor; [|apply Forall_forall; intros d Hd; apply in_map_iff in Hd as ([[i' j'] k'] & <- & Hd)|apply IH; intros x Hx; apply HI; now right].
    - unfold kchain, ok1, c_s, c_t, c_in. cbn [fst snd]. split; [|split; [|split; [|split; [|split]]]].
      + apply in_map. apply nth_In. fold labels. lia.
      + apply in_map. apply nth_In. fold labels. lia.
      + intros K. pose proof (key_len i j k) as L. unfold labels in L. rewrite K in L. cbn [List.length] in L. destruct (i =? j); lia.
      + unfold key_vertices, chain_vertices. apply FinFun.Injective_map_NoDup; [intros a b E; now injection E|apply seq_NoDup].
      + intros y Hy. apply in_flat_map. exists (i, j, k). auto.
      + pose proof (key_len i j k) as L. unfold labels in L. rewrite L. destruct (Nat.eqb_spec i j) as [->|N].
        * destruct (sv_dec _ _); [lia|congruence].
        * destruct (sv_dec (Essential (nth i (registered es) EmptyString)) (Essential (nth j (registered es) EmptyString))) as [e|_]; [|lia]. exfalso. injection e as e. apply N. apply (lab_inj es); fold labels; (lia || exact e).
    - intros y Hy Hy'. unfold kchain, c_in in Hy, Hy'. cbn [snd] in *. pose proof (HI (i', j', k') (or_intror Hd)) as Hd'. apply in_keys in Hd'. fold labels in Hd'. unfold key_vertices, chain_vertices in Hy, Hy'. apply in_map_iff in Hy as (l & <- & _), Hy' as (l' & E & _). injection E as E1 E2 E3 _ _.
      apply (lab_inj es) in E1; [|fold labels; lia..]. apply (lab_inj es) in E2; [|fold labels; lia..]. subst. contradiction.
  Qed.
  (** Sums over the keys are sums over the edges. *)
  Definition tri : list (nat * nat) := flat_map (fun j => map (fun i => (i, j)) (seq 0 (S j))) (seq 0 (List.length (registered es))).
  Lemma in_tri i j : In (i, j) tri <-> i <= j /\ j < List.length labels.
  Proof.
    unfold tri. rewrite in_flat_map. split.
    - intros (x & Hx & H). apply in_map_iff in H as (y & [= <- <-] & Hy). apply in_seq in Hx, Hy. fold labels in Hx. lia.
    - intros [H1 H2]. exists j. split; [apply in_seq; fold labels; lia|]. apply in_map_iff. exists i. split; [reflexivity|apply in_seq; lia].
  Qed.
  Lemma tri_NoDup : NoDup tri.
  Proof.
    unfold tri. apply NoDup_flat_map; [apply seq_NoDup|intros j _; apply FinFun.Injective_map_NoDup; [intros a b E; now injection E|apply seq_NoDup]|].
    intros x y z _ _ H1 H2. apply in_map_iff in H1 as (a & <- & _), H2 as (b & E & _). now injection E.
  Qed.
  Definition tkeys : list (nat * nat * nat) := flat_map (fun p => map (fun k => (p, k)) (seq 0 (mult es (nth (fst p) (registered es) EmptyString) (nth (snd p) (registered es) EmptyString)))) tri.
  Lemma tkeys_perm : Permutation (keys es) tkeys.
  Proof.
    apply NoDup_Permutation; [apply keys_NoDup| |].
    - unfold tkeys. apply NoDup_flat_map; [apply tri_NoDup|intros p _; apply FinFun.Injective_map_NoDup; [intros a b E; now injection E|apply seq_NoDup]|].
      intros x y z _ _ H1 H2. apply in_map_iff in H1 as (a & <- & _), H2 as (b & E & _). now injection E.
    - intros [[i j] k]. rewrite in_keys. fold labels. unfold tkeys. rewrite in_flat_map. split.
      + intros (H1 & H2 & H3). exists (i, j). split; [now apply in_tri|]. apply in_map_iff. exists k. split; [reflexivity|]. apply in_seq. cbn [fst snd]. fold labels. lia.
      + intros ([a b] & Hp & H). apply in_map_iff in H as (k' & [= <- <- <-] & Hk). apply in_tri in Hp. apply in_seq in Hk. cbn [fst snd] in Hk. fold labels in Hk. lia.
  Qed.
  Lemma zsuml_flat {A B} (f : B -> Z) (h : A -> list B) l : zsuml (map f (flat_map h l)) = zsuml (map (fun x => zsuml (map f (h x))) l).
  Proof. induction l as [|x l IH]; [reflexivity|]. cbn [flat_map map]. rewrite map_app, zsuml_app, IH. reflexivity. Qed.
  Lemma zsuml_swap {A B} (f : A -> B -> Z) (l : list A) (l' : list B) : zsuml (map (fun x => zsuml (map (f x) l')) l) = zsuml (map (fun y => zsuml (map (fun x => f x y) l)) l').
  Proof.
    induction l as [|x l IH]; [induction l' as [|y l' IH']; [reflexivity|exact IH']|]. cbn [map zsuml fold_right]. fold (zsuml (map (fun x => zsuml (map (f x) l')) l)). rewrite IH. clear IH. induction l' as [|y l' IH]; [reflexivity|].
    cbn [map zsuml fold_right] in *. unfold zsuml in *. lia.
  Qed.
  Lemma zsuml_one {A} (dec : forall x y : A, {x = y} + {x <> y}) (f : A -> Z) (p : A) (l : list A) : NoDup l -> In p l -> (forall q, In q l -> q <> p -> f q = 0%Z) -> zsuml (map f l) = f p.
  Proof.
    intros ND H H0. induction ND as [|x l Nx ND IH]; [destruct H|]. cbn [map zsuml fold_right]. fold (zsuml (map f l)). destruct H as [->|H].
    - enough (zsuml (map f l) = 0%Z) by lia. assert (G : forall q, In q l -> f q = 0%Z) by (intros q Hq; apply H0; [now right|congruence]). clear -G. induction l as [|y l IH]; [reflexivity|]. cbn [map zsuml fold_right]. fold (zsuml (map f l)). rewrite (G y (or_introl eq_refl)), IH; [reflexivity|]. intros q Hq. apply G. now right.
    - rewrite IH; [|exact H|intros q Hq; apply H0; now right]. rewrite (H0 x (or_introl eq_refl)); [lia|congruence].
  Qed.
  Lemma zsuml_const {A} (z : Z) (l : list A) : zsuml (map (fun _ => z) l) = (Z.of_nat (List.length l) * z)%Z.
  Proof. induction l as [|x l IH]; [reflexivity|]. cbn [map zsuml fold_right List.length]. fold (zsuml (map (fun _ : A => z) l)). rewrite IH. lia. Qed.
  Lemma keys_sum (phi : string -> string -> Z) : (forall a b, phi a b = phi b a) ->
    zsuml (map (fun q => phi (lab (fst (fst q))) (lab (snd (fst q)))) (keys es)) = zsuml (map (fun e => phi (fst e) (snd e)) es).
  Proof.
    intros Sym. rewrite (zsuml_perm _ _ (Permutation_map _ tkeys_perm)). unfold tkeys. rewrite zsuml_flat.
    transitivity (zsuml (map (fun p => zsuml (map (fun e => if same_ends (lab (fst p), lab (snd p)) e then phi (lab (fst p)) (lab (snd p)) else 0%Z) es)) tri)).
    - f_equal. apply map_ext. intros p. rewrite map_map. cbn [fst snd]. rewrite zsuml_const, seq_length, <- zsuml_filter, zsuml_const. reflexivity.
    - rewrite zsuml_swap. f_equal. apply map_ext_in. intros e He. destruct (lab_of es e He) as (i & j & Hi & Hj & Ei & Ej). fold labels in Hi, Hj, Ei, Ej. fold (lab i) in Ei. fold (lab j) in Ej.
      assert (dec2 : forall x y : nat * nat, {x = y} + {x <> y}) by (intros; decide equality; apply Nat.eq_dec).
      rewrite (zsuml_one dec2 _ (Nat.min i j, Nat.max i j)); [|apply tri_NoDup|apply in_tri; lia|].
      + cbn [fst snd]. rewrite <- Ei, <- Ej. assert (SE : same_ends (lab (Nat.min i j), lab (Nat.max i j)) e = true).
        { apply same_ends_iff. cbn [fst snd]. rewrite <- Ei, <- Ej. destruct (Nat.le_ge_cases i j); [left; rewrite Nat.min_l, Nat.max_r by lia|right; rewrite Nat.min_r, Nat.max_l by lia]; auto. }
        rewrite SE. destruct (Nat.le_ge_cases i j); [rewrite Nat.min_l, Nat.max_r by lia; reflexivity|rewrite Nat.min_r, Nat.max_l by lia; apply Sym].
      + intros [a b] Hp Np. apply in_tri in Hp. cbn [fst snd]. destruct (same_ends (lab a, lab b) e) eqn:K; [|reflexivity]. exfalso. apply Np. apply same_ends_iff in K. cbn [fst snd] in K. rewrite <- Ei, <- Ej in K.
        destruct K as [[K1 K2]|[K1 K2]]; apply (lab_inj es) in K1, K2; fold labels; try lia; subst; f_equal; lia.
  Qed.
  Lemma keys_length : List.length (keys es) = List.length es.
  Proof.
    pose proof (keys_sum (fun _ _ => 1%Z) (fun _ _ => eq_refl)) as H. cbv beta in H. rewrite !zsuml_const in H. lia.
  Qed.
  Lemma dg_degree v : dg sv_dec (map kchain (keys es)) (Essential v) = degree es v.
  Proof.
    unfold dg, degree. rewrite map_map.
    assert (Sym : forall a b, ((if String.eqb a v then 1 else 0) + (if String.eqb b v then 1 else 0) = (if String.eqb b v then 1 else 0) + (if String.eqb a v then 1 else 0))%Z) by (intros; apply Z.add_comm).
    pose proof (keys_sum (fun a b => ((if String.eqb a v then 1 else 0) + (if String.eqb b v then 1 else 0))%Z) Sym) as KS. unfold ends_at. rewrite <- KS. f_equal. apply map_ext. intros q. unfold kchain, e_at, c_s, c_t, lab, labels. cbn [fst snd].
    assert (G : forall x, (if sv_dec (Essential x) (Essential v) then 1 else 0)%Z = (if String.eqb x v then 1 else 0)%Z).
    { intros x. destruct (sv_dec (Essential x) (Essential v)) as [e|N], (String.eqb_spec x v) as [e'|N']; try reflexivity; congruence. }
    now rewrite !G.
  Qed.
  Lemma sprod_perm {A} (f : A -> series) l l' : Permutation l l' -> sprod f l == sprod f l'.
  Proof. induction 1 as [|x l l' P IH|x y l|l l1 l2 P1 IH1 P2 IH2]; cbn [sprod fold_right] in *; fold (sprod f) in *; [reflexivity|now rewrite IH|ring|now rewrite IH1]. Qed.
  Lemma series_prod_map {A} (f : A -> series) l : series_prod (map f l) == sprod f l.
  Proof. induction l as [|x l IH]; [reflexivity|]. cbn [map series_prod fold_right sprod]. fold (series_prod (map f l)) (sprod f l). rewrite <- smul_series. now rewrite IH. Qed.
  Lemma closed_gal : closed sv_dec L0 (map kchain (keys es)) (fun _ => true) == gal es.
  Proof.
    unfold closed, gal. rewrite <- smul_series, !series_prod_map. rewrite map_length, keys_length.
    assert (E1 : spow sg (List.length es) == sprod (fun _ => geometric) es) by (clear; induction es as [|e l IH]; [reflexivity|]; cbn [List.length spow sprod fold_right]; fold (sprod (fun _ : string * string => geometric) l); now rewrite IH).
    assert (E2 : sprod (phi sv_dec (map kchain (keys es)) (fun _ => true)) L0 == sprod (fun v => linear (1 - degree es v)) (graph_vertices es)).
    { transitivity (sprod (fun v => linear (1 - degree es v)) (registered es)).
      - unfold L0. generalize (registered es) as ls. induction ls as [|v l IH]; [reflexivity|]. cbn [map sprod fold_right]. fold (sprod (phi sv_dec (map kchain (keys es)) (fun _ => true)) (map Essential l)) (sprod (fun v => linear (1 - degree es v)) l). rewrite IH. unfold phi at 1. rewrite dg_degree, lin_linear. reflexivity.
      - apply sprod_perm, NoDup_Permutation; [apply registered_NoDup|apply NoDup_nodup|]. intros v. unfold graph_vertices. rewrite registered_in, nodup_In, in_flat_map. split; intros (e & He & H); exists e; (split; [exact He|]); [destruct H as [<-|<-]; cbn; auto|destruct H as [<-|[<-|[]]]; auto]. }
    rewrite E1, E2. ring.
  Qed.
  Theorem gal_keys : W sv_dec (L0 ++ II) (flat_map (key_edges (registered es) m) (keys es)) (fun _ => true) n = gal es n.
  Proof.
    change (registered es) with labels. rewrite <- (kedges (keys es) (incl_refl _)). rewrite <- (closed_gal n). apply (gal_chains sv_dec L0 II n NDV); [apply kok; [apply keys_NoDup|apply incl_refl]|auto| |].
    - intros y Hy K. exfalso. apply in_flat_map in Hy as (q & Hq & Hy). apply (K (kchain q)); [now apply in_map|exact Hy].
    - unfold un. clear. induction L0 as [|v l IH]; cbn in *; lia.
  Qed.
End Keyed.
