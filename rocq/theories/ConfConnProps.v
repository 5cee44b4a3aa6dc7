(** C127: the configuration complex of a connected graph is connected, and its zeroth homology is Z. *)
From Coq Require Import String List Arith ZArith Bool Lia ZifyBool ZifyNat Permutation Sorted Relations.
From Verif Require Import PidModel MatModel MatSpec GraphModel GraphSpec GraphProofs GraphProofs2 GraphProofs5 GraphProofs8 GraphProps LabGraphModel LabGraphProofs2 LabGraphProps SubdivSpec SubdivProofs2 SubdivProps CubeModel CubeSpec CubeProofs CubeProofs2 CubeProofs5 CubeProofs6 CubeProofs7 CubeProps CubeProps2 CubePartialModel
  EdgePathModel EdgePathSpec MorseModel MorseSpec MorseProofs MorseProofs2 MorseProps MorseCplxProps3.
Import ListNotations.
Open Scope nat_scope.
Open Scope list_scope.

(** Two 0-cells are joined when both are faces of one 1-cell. *)
Definition joined (c : cplx) (a b : list factor) : Prop := exists e, In e (cells_of_dim c 1) /\ incidence e a <> 0%Z /\ incidence e b <> 0%Z.

Definition isv (f : factor) : Prop := is_edge f = false.
Lemma sum_one n (f : nat -> Z) p : p < n -> (forall k, k < n -> k <> p -> f k = 0%Z) -> sum n f = f p.
Proof.
  induction n as [|n IH]; intros Hp H; [lia|]. change (sum n f + f n = f p)%Z. destruct (Nat.eq_dec p n) as [->|N].
  - enough (K : sum n f = 0%Z) by lia. clear IH Hp. assert (H' : forall k, k < n -> f k = 0%Z) by (intros k Hk; apply H; lia). clear H. induction n as [|n IH]; [reflexivity|]. change (sum n f + f n = 0)%Z. rewrite IH by (intros; apply H'; lia). rewrite H' by lia. reflexivity.
  - rewrite IH, (H n) by (intros; try apply H; lia). lia.
Qed.
Lemma sum_addZ n (f g : nat -> Z) : sum n (fun k => f k + g k)%Z = (sum n f + sum n g)%Z.
Proof. induction n as [|n IH]; [reflexivity|]. change (sum n (fun k => f k + g k) + (f n + g n) = (sum n f + f n) + (sum n g + g n))%Z. rewrite IH. lia. Qed.
Lemma sum_mulZ n a (f : nat -> Z) : sum n (fun k => a * f k)%Z = (a * sum n f)%Z.
Proof. induction n as [|n IH]; [symmetry; apply Z.mul_0_r|]. change (sum n (fun k => a * f k) + a * f n = a * (sum n f + f n))%Z. rewrite IH. lia. Qed.
Lemma sum_swapZ n m (f : nat -> nat -> Z) : sum n (fun i => sum m (f i)) = sum m (fun j => sum n (fun i => f i j)).
Proof.
  induction n as [|n IH]; [|change (sum (S n) (fun i => sum m (f i))) with (sum n (fun i => sum m (f i)) + sum m (f n))%Z; rewrite IH, <- sum_addZ; reflexivity].
  cbn. induction m as [|m IH]; [reflexivity|]. change (0 = sum m (fun _ => 0) + 0)%Z. rewrite <- IH. reflexivity.
Qed.
Lemma sum_zeroZ n (f : nat -> Z) : (forall k, k < n -> f k = 0%Z) -> sum n f = 0%Z.
Proof. intros H. rewrite (sum_extZ n f (fun k => 0 * 0)%Z) by (intros; now rewrite H). rewrite sum_mulZ. reflexivity. Qed.

Definition eqc (a b : list factor) : Z := if list_eq_dec f_dec a b then 1%Z else 0%Z.
Lemma edge_incidence e P x y Q f : pd e -> e = P ++ FEdge x y :: Q -> Forall isv P -> Forall isv Q -> pd f -> listed f ->
  incidence e f = (eqc (f_sort (P ++ FVertex x :: Q)) f - eqc (f_sort (P ++ FVertex y :: Q)) f)%Z.
Proof.
  intros He E HP HQ Hf Lf. unfold incidence. rewrite (sum_one _ _ (List.length P)).
  - assert (EN : nth (List.length P) e (FVertex 0) = FEdge x y) by (rewrite E, app_nth2, Nat.sub_diag by lia; reflexivity). rewrite EN.
    assert (ER : forall v, replaced e (List.length P) v = P ++ FVertex v :: Q).
    { intros v. unfold replaced. rewrite E, firstn_app, Nat.sub_diag, firstn_all. cbn [firstn]. rewrite app_nil_r. f_equal. f_equal. replace (S (List.length P)) with (List.length P + 1) by lia. rewrite skipn_app, skipn_all2 by lia. replace (List.length P + 1 - List.length P) with 1 by lia. reflexivity. }
    assert (EF : firstn (List.length P) e = P) by (rewrite E, firstn_app, Nat.sub_diag, firstn_all; cbn [firstn]; apply app_nil_r).
    rewrite EF, (dimension_vertices P HP). cbn [sign Nat.even]. unfold sign. cbn [Nat.even].
    assert (D : forall v, v = x \/ v = y -> delta (replaced e (List.length P) v) f = eqc (f_sort (P ++ FVertex v :: Q)) f).
    { intros v Hv. pose proof (pd_replaced e (List.length P) x y v EN Hv He) as PD. rewrite ER in *. unfold delta, eqc. pose proof (same_cells_iff _ f PD Hf Lf) as S. destruct (same_cells (P ++ FVertex v :: Q) f), (list_eq_dec f_dec (f_sort (P ++ FVertex v :: Q)) f); intuition congruence. }
    rewrite !D by auto. lia.
  - rewrite E, app_length. cbn. lia.
  - intros k Hk N. assert (V : isv (nth k e (FVertex 0))).
    { rewrite E. rewrite E, app_length in Hk. cbn [List.length] in Hk. destruct (Nat.lt_ge_cases k (List.length P)) as [L|L].
      - rewrite app_nth1 by exact L. rewrite Forall_forall in HP. apply HP, nth_In, L.
      - rewrite app_nth2 by exact L. destruct (k - List.length P) as [|j] eqn:J; [lia|]. cbn [nth]. rewrite Forall_forall in HQ. apply HQ, nth_In. lia. }
    destruct (nth k e (FVertex 0)); [discriminate V|reflexivity].
Qed.

Section Conn.
  Variable (g : rawg) (n : nat) (c : cplx).
  Hypothesis HE : enumerates g n c.
  Lemma cell_in k l : In l (cells_of_dim c k) <-> configuration g n l /\ listed l /\ dimension l = k.
  Proof.
    rewrite (cells_Lk g n c k HE). unfold Lk. split.
    - intros H. apply in_map_iff in H as (i & <- & H). apply filter_In in H as (Hi & D). apply Nat.eqb_eq in D. destruct (F_cell g n c HE i Hi) as (_ & A & B & _ & ED). repeat split; try apply A; try exact B. congruence.
    - intros (A & B & D). destruct HE as (_ & _ & _ & IX & _). destruct (IX l A B) as (i & _ & Ei). apply in_map_iff. exists i. assert (CE : cellof c i = l) by (unfold cellof; now rewrite Ei). split; [exact CE|].
      assert (Hi : In i (c_final c)). { unfold get_cell_from_idx in Ei. destruct (existsb (Nat.eqb i) (c_final c)) eqn:X; [|discriminate Ei]. apply existsb_exists in X as (j & Hj & X). apply Nat.eqb_eq in X. now subst j. }
      apply filter_In. split; [exact Hi|]. apply Nat.eqb_eq. destruct (F_cell g n c HE i Hi) as (_ & _ & _ & _ & ED). congruence.
  Qed.
  Lemma cells_NoDup k : NoDup (cells_of_dim c k).
  Proof. rewrite (cells_Lk g n c k HE). apply map_NoDup_in; [|apply (Lk_NoDup g n c HE)]. intros i j Hi Hj. apply filter_In in Hi as [Hi _]. apply filter_In in Hj as [Hj _]. now apply (cell_inj g n c HE). Qed.
  Hypothesis HG : GI g.
  Definition pc (p : list nat) : list factor := f_sort (map FVertex p).
  Definition pts (p : list nat) : Prop := points g p /\ List.length p = n.
  Lemma pd_points p : NoDup p -> pd (map FVertex p).
  Proof. induction 1 as [|x p N ND IH]; cbn; constructor; [|exact IH]. apply Forall_forall. intros f Hf v. apply in_map_iff in Hf as (y & <- & Hy). cbn. intros [<-|[]] [->|[]]. contradiction. Qed.
  Lemma config_points p : pts p -> configuration g n (map FVertex p).
  Proof.
    intros ((ND & HR) & L). split; [now rewrite map_length|]. split; [|now apply pd_points]. apply Forall_forall. intros f Hf. apply in_map_iff in Hf as (y & <- & Hy). cbn. now apply HR.
  Qed.
  Lemma config_sort l : configuration g n l -> configuration g n (f_sort l) /\ listed (f_sort l).
  Proof. intros (A & B & C). pose proof (f_sort_perm l) as P. split; [|now apply f_sort_listed]. split; [rewrite (Permutation_length P); exact A|]. split; [now apply (Permutation_Forall (Permutation_sym P))|now apply f_sort_pd]. Qed.
  Lemma dim_points p : dimension (map FVertex p) = 0.
  Proof. apply dimension_vertices, Forall_forall. intros f Hf. now apply in_map_iff in Hf as (y & <- & _). Qed.
  Lemma pc_in p : pts p -> In (pc p) (cells_of_dim c 0).
  Proof. intros H. apply cell_in. destruct (config_sort _ (config_points p H)) as [A B]. split; [exact A|]. split; [exact B|]. unfold pc. rewrite (dimension_perm _ _ (f_sort_perm _)). apply dim_points. Qed.
  Lemma all_vertices l : dimension l = 0 -> Forall isv l.
  Proof. induction l as [|[x y|x] l IH]; intros H; [constructor|discriminate|]. constructor; [reflexivity|now apply IH]. Qed.
  Lemma vertices_map l : Forall isv l -> l = map FVertex (map low l).
  Proof. induction 1 as [|f l Hf Hl IH]; [reflexivity|]. cbn [map]. rewrite <- IH. destruct f; [discriminate Hf|reflexivity]. Qed.
  Lemma pts_of l : In l (cells_of_dim c 0) -> exists p, l = map FVertex p /\ pts p /\ StronglySorted lt p.
  Proof.
    intros H. apply cell_in in H as ((L & F & PD) & LI & D). apply all_vertices in D. apply vertices_map in D. exists (map low l). split; [exact D|].
    assert (SS : StronglySorted lt (map low l)). { clear -LI. unfold listed in LI. induction LI as [|f l S IH F]; cbn; constructor; [exact IH|]. rewrite Forall_map. exact F. }
    split; [|exact SS]. split; [split|now rewrite map_length].
    - now apply sorted_NoDup.
    - intros v Hv. apply (in_map FVertex) in Hv. rewrite <- D in Hv. rewrite Forall_forall in F. exact (F _ Hv).
  Qed.

  Definition link (a b : list factor) : Prop := In a (cells_of_dim c 0) /\ In b (cells_of_dim c 0) /\ exists e s, In e (cells_of_dim c 1) /\ (s = 1 \/ s = -1)%Z /\ forall f, In f (cells_of_dim c 0) -> incidence e f = (s * (eqc a f - eqc b f))%Z.
  Lemma link_edge l r x y : x < y -> edge g x y = true -> pts (l ++ x :: r) -> ~ In y (l ++ x :: r) -> exists e, In e (cells_of_dim c 1) /\ forall f, In f (cells_of_dim c 0) -> incidence e f = (eqc (pc (l ++ x :: r)) f - eqc (pc (l ++ y :: r)) f)%Z.
  Proof.
    intros Hxy Exy Hp Hy. set (m := map FVertex l ++ FEdge x y :: map FVertex r).
    assert (CM : configuration g n m).
    { destruct Hp as ((ND & HR) & L). split; [unfold m; rewrite <- L, !app_length; cbn; now rewrite !map_length|]. split.
      - unfold m. apply Forall_app. split; [|constructor; [now split|]]; apply Forall_forall; intros f Hf; apply in_map_iff in Hf as (v & <- & Hv); cbn; apply HR; apply in_or_app; [now left|right; now right].
      - unfold m. assert (PM : Permutation (FEdge x y :: map FVertex (l ++ r)) (map FVertex l ++ FEdge x y :: map FVertex r)) by (rewrite map_app; apply Permutation_middle).
        apply (pd_perm _ _ PM). apply NoDup_remove in ND as [ND NX]. constructor; [|now apply pd_points]. apply Forall_forall. intros f Hf v Hv K. apply in_map_iff in Hf as (w & <- & Hw). destruct K as [->|[]]. cbn in Hv. destruct Hv as [<-|[<-|[]]]; [contradiction|]. apply Hy. apply in_app_or in Hw as [Hw|Hw]; apply in_or_app; [now left|right; now right]. }
    destruct (config_sort m CM) as [C1 C2]. assert (D : dimension m = 1) by (unfold m; rewrite dimension_app; change (dimension (FEdge x y :: map FVertex r)) with (S (dimension (map FVertex r))); now rewrite !dim_points).
    exists (f_sort m). split; [apply cell_in; split; [exact C1|]; split; [exact C2|]; now rewrite (dimension_perm _ _ (f_sort_perm m))|].
    intros f Hf. apply cell_in in Hf as ((_ & _ & PF) & LF & DF).
    pose proof (f_sort_perm m) as PM. assert (IN : In (FEdge x y) (f_sort m)) by (rewrite PM; apply in_or_app; right; now left). apply in_split in IN as (P & Q & E).
    assert (PQ : Permutation (P ++ Q) (map FVertex (l ++ r))). { rewrite map_app. apply (Permutation_app_inv _ _ _ _ (FEdge x y)). rewrite <- E. exact PM. }
    assert (VPQ : Forall isv (P ++ Q)). { apply (Permutation_Forall (Permutation_sym PQ)), Forall_forall. intros z Hz. now apply in_map_iff in Hz as (w & <- & _). } apply Forall_app in VPQ as [VP VQ].
    assert (EV : forall v, v = x \/ v = y -> f_sort (P ++ FVertex v :: Q) = pc (l ++ v :: r)).
    { intros v Hv. unfold pc. symmetry. apply f_sort_eq.
      - apply pd_points. destruct Hp as ((ND & _) & _). destruct Hv as [->| ->]; [exact ND|]. apply NoDup_remove in ND as [ND _]. apply (Permutation_NoDup (l := y :: l ++ r)); [apply Permutation_middle|]. constructor; [|exact ND]. intros K. apply Hy. apply in_app_or in K as [K|K]; apply in_or_app; [now left|right; now right].
      - rewrite map_app. cbn [map]. rewrite <- !Permutation_middle. constructor. rewrite <- map_app. now symmetry. }
    rewrite (edge_incidence (f_sort m) P x y Q f); auto; [|apply C1]. rewrite !EV by auto. reflexivity.
  Qed.
  Lemma link_move p q a b : pts p -> moves1 p (a, b) q -> edge g a b = true -> pts q /\ link (pc p) (pc q).
  Proof.
    intros Hp M Eab. inversion M as [l r a' b' Hb]; subst. destruct (edge_lt g a b HG Eab) as (Ha & Hb' & N).
    assert (Hq : pts (l ++ b :: r)).
    { destruct Hp as ((ND & HR) & L). split; [split|].
      - apply NoDup_remove in ND as [ND _]. apply (Permutation_NoDup (l := b :: l ++ r)); [apply Permutation_middle|]. constructor; [|exact ND]. intros K. apply Hb. apply in_app_or in K as [K|K]; apply in_or_app; [now left|right; now right].
      - intros v Hv. apply in_app_or in Hv as [Hv|[<-|Hv]]; [apply HR, in_or_app; now left|exact Hb'|apply HR, in_or_app; right; now right].
      - rewrite <- L, !app_length. reflexivity. }
    split; [exact Hq|]. split; [now apply pc_in|]. split; [now apply pc_in|]. destruct (Nat.lt_total a b) as [L|[L|L]]; [|contradiction|].
    - destruct (link_edge l r a b L Eab Hp Hb) as (e & He & K). exists e, 1%Z. split; [exact He|]. split; [now left|]. intros f Hf. rewrite K by exact Hf. lia.
    - rewrite edge_sym in Eab. assert (Hb2 : ~ In a (l ++ b :: r)). { destruct Hp as ((ND & _) & _). apply NoDup_remove in ND as [_ ND]. intros K. apply in_app_or in K as [K|[K|K]]; [apply ND, in_or_app; now left|congruence|apply ND, in_or_app; now right]. }
      destruct (link_edge l r b a L Eab Hq Hb2) as (e & He & K). exists e, (-1)%Z. split; [exact He|]. split; [now right|]. intros f Hf. rewrite K by exact Hf. lia.
  Qed.
End Conn.

(** Every configuration of points reaches the base configuration through links. *)
Lemma link_moves g n c (HE : enumerates g n c) (HG : GI g) w : forall p q, pts g n p -> moves p w q -> (forall a b, In (a, b) w -> edge g a b = true) -> pts g n q /\ clos_refl_trans _ (link c) (pc p) (pc q).
Proof.
  induction w as [|[a b] w IH]; intros p q Hp M HW; inversion M; subst; [split; [exact Hp|apply rt_refl]|].
  match goal with H : moves1 p (a, b) ?p' |- _ => destruct (link_move g n c HE HG p p' a b Hp H (HW a b (or_introl eq_refl))) as (Hp' & L) end.
  match goal with H : moves _ w q |- _ => destruct (IH _ _ Hp' H (fun x y K => HW x y (or_intror K))) as (Hq & R) end. split; [exact Hq|]. eapply rt_trans; [apply rt_step; exact L|exact R].
Qed.
Lemma link_sym c a b : link c a b -> link c b a.
Proof. intros (Ia & Ib & e & s & A & B & C). split; [exact Ib|]. split; [exact Ia|]. exists e, (- s)%Z. split; [exact A|]. split; [lia|]. intros f Hf. rewrite (C f Hf). lia. Qed.
Lemma rt_sym c a b : clos_refl_trans _ (link c) a b -> clos_refl_trans _ (link c) b a.
Proof. induction 1 as [x y H|x|x y z H IH H' IH']; [apply rt_step, link_sym, H|apply rt_refl|eapply rt_trans; eassumption]. Qed.

Lemma linked_base es gr n sg c : graph_from es = Some gr -> subdivided_graph_from gr n = Some sg -> connected (g_n_vertices (sg_data sg)) (edge (sg_data sg)) -> enumerates (sg_data sg) n c ->
  forall a, In a (cells_of_dim c 0) -> clos_refl_trans _ (link c) a (map FVertex (seq 0 n)).
Proof.
  intros E ES HC HE a Ha. set (g := sg_data sg) in *. pose proof (ar_sub es gr n sg E ES HC) as Ar. pose proof (arranged_AR _ Ar) as HA. destruct (sub_made gr n sg es E ES) as (g0 & p0 & HG0 & ET). pose proof (maximal_tree_spec g0 HG0) as HM. rewrite ET in HM. destruct HM as (_ & R & TT & _). pose proof (GraphProofs5.L_GI _ _ _ R) as HG. fold g in HG, TT, R.
  destruct (pts_of g n c HE a Ha) as (p & -> & (Pp & Lp) & SS). destruct (C95_subdivided es gr n sg E ES HC) as (St & _).
  destruct (C95_flow g p (fun _ => None) Ar Pp SS) as (l' & _ & F2 & F3 & F4 & F5 & t & w & M & PT & IW).
  assert (EL : l' = seq 0 n) by (apply (settled_sorted g HA n l' St F3 (proj2 F2)); [congruence|exact F5]). subst l'.
  destruct (link_moves g n c HE HG w p t (conj Pp Lp) M) as (Ht & K).
  { intros x y Hxy. specialize (IW x y Hxy). apply tree_edge_child in IW; [|exact HG|exact TT]. destruct IW as (_ & K & _). rewrite edge_sym. exact K. }
  assert (E1 : pc p = map FVertex p) by (apply f_sort_id; [apply pd_points; apply Pp|destruct (proj1 (cell_in g n c HE 0 _) Ha) as (_ & LI & _); exact LI]).
  assert (E2 : pc t = map FVertex (seq 0 n)).
  { unfold pc. rewrite (f_sort_eq _ (map FVertex (seq 0 n))); [|apply pd_points; apply Ht|now apply Permutation_map]. apply f_sort_id; [apply pd_points, seq_NoDup|]. clear. generalize 0 as s. induction n as [|m IH]; intros s; cbn [seq map]; constructor; [apply IH|]. apply Forall_forall. intros f Hf. apply in_map_iff in Hf as (v & <- & Hv). apply in_seq in Hv. cbn. lia. }
  rewrite E1, E2 in K. exact K.
Qed.
(** Any two configurations of points are connected through configurations of points, each joined to the next by a 1-cell of the complex. *)
Theorem C127_connected : forall es gr n sg c, graph_from es = Some gr -> subdivided_graph_from gr n = Some sg -> connected (g_n_vertices (sg_data sg)) (edge (sg_data sg)) -> 1 <= n -> udc gr n = Some c ->
  cells_of_dim c 0 <> [] /\ forall a b, In a (cells_of_dim c 0) -> In b (cells_of_dim c 0) -> clos_refl_trans _ (fun x y => In x (cells_of_dim c 0) /\ In y (cells_of_dim c 0) /\ joined c x y) a b.
Proof.
  intros es gr n sg c E ES HC Hn EU. destruct (C56_udc es gr n sg E ES HC Hn) as (c' & EU' & HE). rewrite EU in EU'. injection EU' as <-. destruct (C95_subdivided es gr n sg E ES HC) as ((Hsz & _) & _). split.
  - assert (B : In (pc (seq 0 n)) (cells_of_dim c 0)). { apply (pc_in (sg_data sg) n c HE). split; [split; [apply seq_NoDup|]|apply seq_length]. intros v Hv. apply in_seq in Hv. lia. }
    intros K. rewrite K in B. destruct B.
  - intros a b Ha Hb. pose proof (linked_base es gr n sg c E ES HC HE a Ha) as La. pose proof (rt_sym _ _ _ (linked_base es gr n sg c E ES HC HE b Hb)) as Lb.
    assert (K : clos_refl_trans _ (link c) a b) by (eapply rt_trans; eassumption). clear La Lb. apply clos_rt_rt1n in K. revert Hb. induction K as [x|x y z H R IH]; intros Hb; [apply rt_refl|].
    destruct (list_eq_dec f_dec x y) as [->|Nxy]; [apply IH; assumption|]. destruct H as (_ & Hy & e & s & He & Hs & H).
    eapply rt_trans; [apply rt_step|apply IH; assumption]. split; [exact Ha|]. split; [exact Hy|]. exists e. split; [exact He|]. rewrite !H by assumption. unfold eqc. destruct (list_eq_dec f_dec x x), (list_eq_dec f_dec y y), (list_eq_dec f_dec x y), (list_eq_dec f_dec y x); try congruence. lia.
Qed.
Print Assumptions C127_connected.

(** The zeroth homology is Z: with the second matrix of [boundary_map], an integer 0-chain is a boundary exactly when its coefficients add up to 0. *)
Theorem C127_H0 : forall es gr n sg c bm D bs, graph_from es = Some gr -> subdivided_graph_from gr n = Some sg -> connected (g_n_vertices (sg_data sg)) (edge (sg_data sg)) -> 1 <= n -> udc gr n = Some c ->
  boundary_map c = Some bm -> nth_error bm 1 = Some (D, bs) -> nr D = List.length (cells_of_dim c 0) /\
  forall z : nat -> Z, (exists y : nat -> Z, forall i, i < nr D -> sum (nc D) (fun j => (ent D i j * y j)%Z) = z i) <-> sum (nr D) z = 0%Z.
Proof.
  intros es gr n sg c bm D bs E ES HC Hn EU EB ED. destruct (C56_udc es gr n sg E ES HC Hn) as (c' & EU' & HE). rewrite EU in EU'. injection EU' as <-. destruct (C95_subdivided es gr n sg E ES HC) as ((Hsz & _) & _).
  destruct (sub_made gr n sg es E ES) as (g0 & p0 & HG0 & ET). pose proof (maximal_tree_spec g0 HG0) as HM. rewrite ET in HM. destruct HM as (_ & R & _). pose proof (GraphProofs5.L_GI _ _ _ R) as HG. pose proof (linked_base es gr n sg c E ES HC HE) as LB. set (g := sg_data sg) in *.
  destruct (boundary_map_incidence g n c HG HE Hsz) as (bm' & EB' & (LM & HB & _)). rewrite EB in EB'. injection EB' as <-.
  assert (H1 : 1 <= c_dim c). { assert (K : 1 < List.length bm) by (apply nth_error_Some; congruence). lia. }
  destruct (HB 1 H1) as (D' & ED' & _ & NC & _ & HD). rewrite ED in ED'. injection ED' as <- ->. destruct (HD ltac:(lia)) as (NR & HI). cbn [Nat.sub] in *. split; [exact NR|].
  set (C0 := cells_of_dim c 0) in *. set (C1 := cells_of_dim c 1) in *. pose proof (cells_NoDup g n c HE 0) as ND0. fold C0 in ND0.
  set (at0 := fun i => nth i C0 []). set (at1 := fun j => nth j C1 []).
  assert (A0 : forall i, i < nr D -> nth_error C0 i = Some (at0 i)) by (intros i Hi; apply nth_error_nth'; lia).
  assert (A1 : forall j, j < nc D -> nth_error C1 j = Some (at1 j)) by (intros j Hj; apply nth_error_nth'; lia).
  assert (ID : forall i j, i < nr D -> j < nc D -> ent D i j = incidence (at1 j) (at0 i)) by (intros i j Hi Hj; apply (HI i j); auto).
  assert (ONE : forall a, In a C0 -> sum (nr D) (fun i => eqc a (at0 i)) = 1%Z).
  { intros a Ha. apply In_nth_error in Ha as (p & Hp). assert (Lp : p < nr D) by (rewrite NR; apply nth_error_Some; congruence). pose proof (A0 p Lp) as Hp'. assert (a = at0 p) by congruence. subst a. rewrite (sum_one _ _ p Lp).
    - unfold eqc. destruct (list_eq_dec f_dec (at0 p) (at0 p)); congruence.
    - intros k Hk N. unfold eqc. destruct (list_eq_dec f_dec (at0 p) (at0 k)) as [K|]; [|reflexivity]. exfalso. apply N. apply (proj1 (NoDup_nth_error C0) ND0); [rewrite <- NR; exact Hk|]. rewrite (A0 k Hk), (A0 p Lp). congruence. }
  (* a column of D *)
  assert (COL : forall j, j < nc D -> sum (nr D) (fun i => ent D i j) = 0%Z).
  { intros j Hj. pose proof (nth_error_In _ _ (A1 j Hj)) as He. apply (cell_in g n c HE) in He as ((Le & Fe & PDe) & LIe & De). set (e := at1 j) in *.
    destruct (split_edge e ltac:(lia)) as (P & x & y & Q & Ee & VP). assert (DQ : dimension Q = 0). { pose proof (f_equal dimension Ee) as K. rewrite dimension_app, (dimension_vertices P VP) in K. change (dimension (FEdge x y :: Q)) with (S (dimension Q)) in K. lia. }
    assert (IN : forall v, v = x \/ v = y -> In (f_sort (P ++ FVertex v :: Q)) C0).
    { intros v Hv. apply (cell_in g n c HE). assert (EN : nth (List.length P) e (FVertex 0) = FEdge x y) by (rewrite Ee, app_nth2, Nat.sub_diag by lia; reflexivity). pose proof (pd_replaced e (List.length P) x y v EN Hv PDe) as PDr.
      assert (ER : replaced e (List.length P) v = P ++ FVertex v :: Q).
      { unfold replaced. rewrite Ee, firstn_app, Nat.sub_diag, firstn_all. cbn [firstn]. rewrite app_nil_r. f_equal. f_equal. replace (S (List.length P)) with (List.length P + 1) by lia. rewrite skipn_app, skipn_all2 by lia. replace (List.length P + 1 - List.length P) with 1 by lia. reflexivity. }
      rewrite ER in PDr. assert (CF : configuration g n (P ++ FVertex v :: Q)).
      { split; [rewrite <- Le, Ee, !app_length; reflexivity|]. split; [|exact PDr]. rewrite Ee in Fe. apply Forall_app in Fe as [F1 F2]. inversion F2 as [|? ? F3 F4]; subst. apply Forall_app. split; [exact F1|]. constructor; [|exact F4]. cbn in F3 |- *. destruct F3 as [_ F3]. destruct (edge_lt g x y HG F3) as (? & ? & _). unfold g_n_vertices. destruct Hv; subst; assumption. }
      destruct (config_sort g n _ CF) as [X1 X2]. split; [exact X1|]. split; [exact X2|]. rewrite (dimension_perm _ _ (f_sort_perm _)), dimension_app, (dimension_vertices P VP). exact DQ. }
    rewrite (sum_extZ _ _ (fun i => eqc (f_sort (P ++ FVertex x :: Q)) (at0 i) + (-1) * eqc (f_sort (P ++ FVertex y :: Q)) (at0 i))%Z).
    - rewrite sum_addZ, sum_mulZ, !ONE by auto. lia.
    - intros i Hi. rewrite (ID i j Hi Hj). fold e. pose proof (nth_error_In _ _ (A0 i Hi)) as Hi0. apply (cell_in g n c HE) in Hi0 as ((_ & _ & PDi) & LIi & _). rewrite (edge_incidence e P x y Q (at0 i) PDe Ee VP (all_vertices Q DQ) PDi LIi). lia. }
  intros z. split.
  - intros (y & Hy). rewrite <- (sum_extZ _ _ _ Hy), sum_swapZ. apply sum_zeroZ. intros j Hj. rewrite (sum_extZ _ _ (fun i => y j * ent D i j)%Z) by (intros; lia). rewrite sum_mulZ, COL by exact Hj. lia.
  - intros Hz. set (im := fun u : nat -> Z => exists y : nat -> Z, forall i, i < nr D -> sum (nc D) (fun j => (ent D i j * y j)%Z) = u i).
    assert (I0 : forall u, (forall i, i < nr D -> u i = 0%Z) -> im u) by (intros u Hu; exists (fun _ => 0%Z); intros i Hi; rewrite Hu by exact Hi; apply sum_zeroZ; intros; lia).
    assert (IA : forall u v a, im u -> im v -> im (fun i => u i + a * v i)%Z).
    { intros u v a (y & Hy) (y' & Hy'). exists (fun j => y j + a * y' j)%Z. intros i Hi. rewrite <- (Hy i Hi), <- (Hy' i Hi), <- sum_mulZ, <- sum_addZ. apply sum_extZ. intros; lia. }
    assert (IE : forall u v, im u -> (forall i, i < nr D -> u i = v i) -> im v) by (intros u v (y & Hy) H; exists y; intros i Hi; rewrite <- (H i Hi); auto).
    assert (IL : forall a b, clos_refl_trans _ (link c) a b -> im (fun i => eqc a (at0 i) - eqc b (at0 i))%Z).
    { intros a b K. induction K as [a b (Ha & Hb & e & s & He & Hs & K)|a|a b b' K1 IH1 K2 IH2].
      - apply In_nth_error in He as (q & Hq). assert (Lq : q < nc D) by (rewrite NC; apply nth_error_Some; unfold C1; congruence). pose proof (A1 q Lq) as Hq'. assert (e = at1 q) by (unfold C1 in *; congruence). subst e.
        exists (fun j => if j =? q then s else 0%Z). intros i Hi. rewrite (sum_one _ _ q Lq) by (intros k Hk N; replace (k =? q) with false by lia; lia). rewrite Nat.eqb_refl, (ID i q Hi Lq). rewrite (K (at0 i)) by (apply (nth_error_In _ _ (A0 i Hi))). destruct Hs; subst s; lia.
      - apply I0. intros; lia.
      - apply (IE (fun i => (eqc a (at0 i) - eqc b (at0 i)) + 1 * (eqc b (at0 i) - eqc b' (at0 i)))%Z); [now apply IA|intros; lia]. }
    set (base := map FVertex (seq 0 n)) in *.
    assert (IS : forall m, m <= nr D -> im (fun i => sum m (fun k => z k * (eqc (at0 k) (at0 i) - eqc base (at0 i))))%Z).
    { induction m as [|m IH]; intros Hm; [apply I0; reflexivity|]. apply (IE (fun i => sum m (fun k => z k * (eqc (at0 k) (at0 i) - eqc base (at0 i))) + z m * (eqc (at0 m) (at0 i) - eqc base (at0 i)))%Z); [|reflexivity]. apply IA; [apply IH; lia|]. apply IL, LB, (nth_error_In _ _ (A0 m ltac:(lia))). }
    apply (IE _ z (IS (nr D) (le_n _))). intros i Hi. rewrite (sum_extZ _ _ (fun k => z k * eqc (at0 k) (at0 i) + (- eqc base (at0 i)) * z k)%Z) by (intros; lia). rewrite sum_addZ, sum_mulZ, Hz, (sum_one _ _ i Hi).
    + unfold eqc at 1. destruct (list_eq_dec f_dec (at0 i) (at0 i)); [lia|congruence].
    + intros k Hk N. unfold eqc. destruct (list_eq_dec f_dec (at0 k) (at0 i)) as [K|]; [|lia]. exfalso. apply N. apply (proj1 (NoDup_nth_error C0) ND0); [rewrite <- NR; exact Hk|]. rewrite (A0 k Hk), (A0 i Hi). congruence.
Qed.
Print Assumptions C127_H0.

(** Three points on a segment with a loop at its end: 20 configurations, 36 edges; the matrix of [boundary_map] is 20 by 36. *)
Definition segment_loop : list (string * string) := [("v0", "v1"); ("v1", "v1")]%string.
Example C127_nontrivial : exists gr sg c bm D, graph_from segment_loop = Some gr /\ subdivided_graph_from gr 3 = Some sg /\ connected (g_n_vertices (sg_data sg)) (edge (sg_data sg)) /\ udc gr 3 = Some c /\
  boundary_map c = Some bm /\ nth_error bm 1 = Some (D, []) /\ nr D = 20 /\ nc D = 36.
Proof.
  destruct (graph_from segment_loop) as [gr|] eqn:E; [|vm_compute in E; discriminate E]. destruct (subdivided_graph_from gr 3) as [sg|] eqn:ES; [|vm_compute in E; injection E as <-; vm_compute in ES; discriminate ES].
  assert (HC : g_is_connected (sg_data sg) = Some true) by (clear -E ES; vm_compute in E; injection E as <-; vm_compute in ES; injection ES as <-; vm_compute; reflexivity).
  pose proof (subdivided_connected _ _ _ _ E ES HC) as C. destruct (C56_udc segment_loop gr 3 sg E ES C ltac:(lia)) as (c & EU & _).
  assert (R : (do gr <- graph_from segment_loop; do k <- udc gr 3; do bm <- boundary_map k; match nth_error bm 1 with Some (D, []) => Some (nr D, nc D) | _ => None end) = Some (20, 36)) by (vm_compute; reflexivity). rewrite E in R. cbn [obind] in R. rewrite EU in R. cbn [obind] in R.
  destruct (boundary_map c) as [bm|] eqn:EB; [|discriminate R]. cbn [obind] in R. destruct (nth_error bm 1) as [(D & [|])|] eqn:EN; try discriminate R. injection R as R1 R2.
  exists gr, sg, c, bm, D. repeat split; try assumption.
Qed.
