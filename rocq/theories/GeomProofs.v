(** What one run of [delaunay_triangulation] computes, for any arithmetic. *)
From Coq Require Import List Arith Bool Lia.
From Verif Require Import UtilModel PidModel LinModel GeomModel.
Import ListNotations.
Open Scope nat_scope.

Lemma ofold_app {A B} (f : A -> B -> option A) l1 l2 a : ofold f (l1 ++ l2) a = obind (ofold f l1 a) (ofold f l2).
Proof. revert a. induction l1 as [|x l1 IH]; intros a; cbn; [reflexivity|]. destruct (f a x); cbn; [apply IH|reflexivity]. Qed.

Lemma ofold_push {A B} (f : A -> option B) (g : A -> B) l acc : (forall x, In x l -> f x = Some (g x)) ->
  ofold (fun acc x => do y <- f x; Some (acc ++ [y])) l acc = Some (acc ++ map g l).
Proof.
  revert acc. induction l as [|x l IH]; intros acc H; cbn; [now rewrite app_nil_r|].
  rewrite (H x) by now left. cbn. rewrite IH by (intros; apply H; now right). now rewrite <- app_assoc.
Qed.
Lemma ofold_filter {A} (f : A -> option bool) (g : A -> bool) l acc : (forall x, In x l -> f x = Some (g x)) ->
  ofold (fun acc x => do y <- f x; Some (if y then acc ++ [x] else acc)) l acc = Some (acc ++ filter g l).
Proof.
  revert acc. induction l as [|x l IH]; intros acc H; cbn; [now rewrite app_nil_r|].
  rewrite (H x) by now left. cbn. rewrite IH by (intros; apply H; now right). destruct (g x); [now rewrite <- app_assoc|reflexivity].
Qed.
Lemma ofold_flat {A B} (f : list B -> A -> option (list B)) (g : A -> list B) l acc :
  (forall x acc, In x l -> f acc x = Some (acc ++ g x)) -> ofold f l acc = Some (acc ++ flat_map g l).
Proof.
  revert acc. induction l as [|x l IH]; intros acc H; cbn; [now rewrite app_nil_r|].
  rewrite (H x) by now left. cbn. rewrite IH by (intros; apply H; now right). now rewrite <- app_assoc.
Qed.

Definition edges3 (t : tri) : list (nat * nat) := let '(a, b, c) := t in [(a, b); (a, c); (b, c)].
Definition ll (e : nat * nat) : list nat := [fst e; snd e].
Lemma tri_edges_eq t : tri_edges t = Some (map ll (edges3 t)).
Proof. destruct t as [[a b] c]. reflexivity. Qed.

Lemma tri_eqb_eq t u : tri_eqb t u = true <-> t = u.
Proof.
  destruct t as [[a b] c], u as [[x y] z]. cbn. rewrite !andb_true_iff, !Nat.eqb_eq. split; [intros [[-> ->] ->]; reflexivity|].
  intros H. injection H. auto.
Qed.
Lemma ll_eqb e f : list_eqb (ll e) (ll f) = true <-> e = f.
Proof.
  destruct e as [a b], f as [c d]. cbn. rewrite !andb_true_iff, !Nat.eqb_eq. split; [intros [-> [-> _]]; reflexivity|].
  intros H. injection H. auto.
Qed.

Definition freeb (bad : list tri) (t : tri) (e : nat * nat) : bool :=
  forallb (fun u => tri_eqb u t || negb (existsb (fun f => list_eqb (ll f) (ll e)) (edges3 u))) bad.

Lemma freeb_spec bad t e : freeb bad t e = true <-> forall u, In u bad -> In e (edges3 u) -> u = t.
Proof.
  unfold freeb. rewrite forallb_forall. split; intros H u Hu.
  - intros He. specialize (H u Hu). apply orb_true_iff in H as [H|H]; [now apply tri_eqb_eq|].
    apply negb_true_iff in H. exfalso. apply Bool.not_true_iff_false in H. apply H. apply existsb_exists. exists e. split; [easy|]. now apply ll_eqb.
  - destruct (existsb (fun f => list_eqb (ll f) (ll e)) (edges3 u)) eqn:E; [|now rewrite orb_true_r].
    apply existsb_exists in E as (f & Hf & Ef). apply ll_eqb in Ef. subst f. rewrite (H u Hu Hf). apply orb_true_iff. left. now apply tri_eqb_eq.
Qed.

Lemma edge_is_free_eq bad t e : edge_is_free bad t (ll e) = Some (freeb bad t e).
Proof.
  unfold edge_is_free. rewrite (ofold_flat _ (fun u => map ll (edges3 u))).
  2:{ intros x acc _. now rewrite tri_edges_eq. }
  cbn [obind app]. f_equal. apply Bool.eq_iff_eq_true. rewrite freeb_spec, forallb_forall. split; intros H.
  - intros u Hu He. destruct (tri_eqb u t) eqn:E; [now apply tri_eqb_eq|]. exfalso.
    specialize (H (ll e)). assert (In (ll e) (flat_map (fun u => map ll (edges3 u)) (filter (fun t0 => negb (tri_eqb t0 t)) bad))) as Hin.
    { apply in_flat_map. exists u. split; [apply filter_In; split; [easy|now rewrite E]|]. now apply in_map. }
    apply H in Hin. apply negb_true_iff in Hin. assert (list_eqb (ll e) (ll e) = true) by now apply ll_eqb. congruence.
  - intros x Hx. apply in_flat_map in Hx as (u & Hu & Hx). apply filter_In in Hu as [Hu Hn]. apply in_map_iff in Hx as (f & <- & Hf).
    apply negb_true_iff. apply Bool.not_true_iff_false. intros E. apply ll_eqb in E. subst f. apply H in Hf; [|easy]. subst u.
    apply negb_true_iff in Hn. assert (tri_eqb t t = true) by now apply tri_eqb_eq. congruence.
Qed.

Definition poly (bad : list tri) : list (nat * nat) := flat_map (fun t => filter (freeb bad t) (edges3 t)) bad.

Lemma polygon_eq bad : polygon bad = Some (poly bad).
Proof.
  unfold polygon. rewrite (ofold_flat _ (fun t => filter (freeb bad t) (edges3 t))); [reflexivity|].
  intros t acc Ht. rewrite tri_edges_eq. cbn [obind]. generalize (edges3 t) as es. intros es. revert acc.
  induction es as [|e es IH]; intros acc; cbn; [now rewrite app_nil_r|].
  rewrite edge_is_free_eq. cbn [obind]. destruct (freeb bad t e); cbn; rewrite IH; [|reflexivity].
  destruct e. cbn. now rewrite <- app_assoc.
Qed.

Lemma poly_spec bad e : In e (poly bad) <-> exists t, In t bad /\ In e (edges3 t) /\ forall u, In u bad -> In e (edges3 u) -> u = t.
Proof.
  unfold poly. rewrite in_flat_map. split.
  - intros (t & Ht & He). apply filter_In in He as [He Hf]. exists t. rewrite <- freeb_spec. auto.
  - intros (t & Ht & He & Hu). exists t. split; [easy|]. apply filter_In. rewrite freeb_spec. auto.
Qed.

(** Sorting three numbers. *)
Definition sort3 (a b c : nat) : tri :=
  if a <=? b then if b <=? c then (a, b, c) else if a <=? c then (a, c, b) else (c, a, b)
  else if a <=? c then (b, a, c) else if b <=? c then (b, c, a) else (c, b, a).

Lemma tri_sort_lt a b c : a < b -> a <> c -> b <> c -> tri_sort a b c = Some (sort3 a b c).
Proof.
  intros Hab Hac Hbc. unfold tri_sort, sort3. cbn [sort_by fold_right insert_by].
  destruct (Nat.leb_spec a b); [|lia].
  destruct (Nat.compare_spec b c); [lia| |]; cbn.
  - destruct (Nat.compare_spec a b); [lia| |lia]. destruct (Nat.leb_spec b c); [|lia]. reflexivity.
  - destruct (Nat.leb_spec b c); [lia|]. destruct (Nat.compare_spec a c); [lia| |]; cbn.
    + destruct (Nat.leb_spec a c); [|lia]. reflexivity.
    + destruct (Nat.compare_spec a b); [lia| |lia]. destruct (Nat.leb_spec a c); [lia|]. reflexivity.
Qed.

Definition sorted3 (t : tri) : Prop := let '(a, b, c) := t in a < b /\ b < c.
Lemma sort3_sorted a b c : a <> b -> a <> c -> b <> c -> sorted3 (sort3 a b c).
Proof.
  intros. unfold sort3. destruct (Nat.leb_spec a b); destruct (Nat.leb_spec b c); destruct (Nat.leb_spec a c); cbn; lia.
Qed.
Lemma sort3_in a b c x : In x (tri_list (sort3 a b c)) <-> x = a \/ x = b \/ x = c.
Proof.
  unfold sort3. destruct (a <=? b); destruct (b <=? c); destruct (a <=? c); cbn; intuition congruence.
Qed.
Lemma sorted3_ext t u : sorted3 t -> sorted3 u -> (forall x, In x (tri_list t) <-> In x (tri_list u)) -> t = u.
Proof.
  destruct t as [[a b] c], u as [[x y] z]. cbn. intros [H1 H2] [H3 H4] H.
  pose proof (proj1 (H a) ltac:(auto)). pose proof (proj1 (H b) ltac:(auto)). pose proof (proj1 (H c) ltac:(auto)).
  pose proof (proj2 (H x) ltac:(auto)). pose proof (proj2 (H y) ltac:(auto)). pose proof (proj2 (H z) ltac:(auto)).
  assert (a = x /\ b = y /\ c = z) as (-> & -> & ->) by lia. reflexivity.
Qed.
Lemma edges3_in t e : sorted3 t -> (In e (edges3 t) <-> fst e < snd e /\ In (fst e) (tri_list t) /\ In (snd e) (tri_list t)).
Proof.
  destruct t as [[a b] c], e as [x y]. cbn. intros [H1 H2]. split.
  - intros [E|[E|[E|[]]]]; injection E; intros; subst; lia.
  - intros (H & Hx & Hy). assert ((a = x /\ b = y) \/ (a = x /\ c = y) \/ (b = x /\ c = y)) as [[-> ->]|[[-> ->]|[-> ->]]] by lia; auto.
Qed.

(** * The run *)
Section Run.
  Variable N : Num.
  Variable points : list (vec N).
  Variable orig : vec N * vec N * vec N.
  Notation n := (length points).

  Definition okidx (i x : nat) : Prop := x < i \/ n <= x < n + 3.
  Definition okt (i : nat) (t : tri) : Prop := sorted3 t /\ forall x, In x (tri_list t) -> okidx i x.

  Definition pos (x : nat) : vec N := match index N points orig x with Some v => v | None => v_zero N end.
  Lemma index_pos i x : i <= n -> okidx i x -> index N points orig x = Some (pos x).
  Proof.
    intros Hi H. unfold pos. destruct (index N points orig x) eqn:E; [reflexivity|]. exfalso. unfold index in E. destruct (Nat.ltb_spec x n).
    - apply nth_error_None in E. lia.
    - destruct orig as [[p1 p2] p3]. apply nth_error_None in E. cbn in E. unfold okidx in H. lia.
  Qed.
  Lemma nth_pos x : x < n -> nth_error points x = Some (pos x).
  Proof. intros H. rewrite <- (index_pos n x); [|lia|now left]. unfold index. destruct (Nat.ltb_spec x n); [reflexivity|lia]. Qed.

  Definition badb (i : nat) (t : tri) : bool :=
    let '(a, b, c) := t in circum_circle_contains N (pos a, pos b, pos c) (pos i).
  Lemma bad_test_eq i t : i < n -> okt i t -> bad_test N points orig i t = Some (badb i t).
  Proof.
    intros Hi [Hs Ht]. destruct t as [[a b] c]. cbn in Ht. unfold bad_test.
    rewrite (index_pos i a), (index_pos i b), (index_pos i c) by (try lia; apply Ht; auto). cbn [obind].
    rewrite nth_pos by easy. reflexivity.
  Qed.

  Definition step (L : list tri) (i : nat) : list tri :=
    filter (fun t => negb (badb i t)) L ++ map (fun e => sort3 (fst e) (snd e) i) (poly (filter (badb i) L)).

  Lemma poly_ok i L e : Forall (okt i) L -> In e (poly (filter (badb i) L)) -> fst e < snd e /\ okidx i (fst e) /\ okidx i (snd e).
  Proof.
    intros HL He. apply poly_spec in He as (t & Ht & He & _). apply filter_In in Ht as [Ht _].
    rewrite Forall_forall in HL. apply HL in Ht as [Hs Hx]. apply edges3_in in He; [|easy]. destruct He as (H1 & H2 & H3). auto.
  Qed.

  Lemma insert_point_eq L i : i < n -> Forall (okt i) L -> insert_point N points orig L i = Some (step L i).
  Proof.
    intros Hi HL. unfold insert_point, bad_triangles. rewrite (ofold_filter _ (badb i)).
    2:{ intros t Ht. apply bad_test_eq; [easy|]. rewrite Forall_forall in HL. auto. }
    cbn [obind app]. rewrite polygon_eq. cbn [obind].
    rewrite (ofold_push _ (fun e => sort3 (fst e) (snd e) i)).
    2:{ intros e He. apply (poly_ok i L e HL) in He as (H1 & H2 & H3). unfold okidx in *. apply tri_sort_lt; lia. }
    unfold step. f_equal. f_equal. apply filter_ext_in. intros t Ht. f_equal.
    apply Bool.eq_iff_eq_true. rewrite existsb_exists. split.
    - intros (u & Hu & E). apply tri_eqb_eq in E. subst u. now apply filter_In in Hu.
    - intros E. exists t. split; [now apply filter_In|now apply tri_eqb_eq].
  Qed.

  Lemma in_step L i t : In t (step L i) <->
    (In t L /\ badb i t = false) \/ exists e, In e (poly (filter (badb i) L)) /\ t = sort3 (fst e) (snd e) i.
  Proof.
    unfold step. rewrite in_app_iff, filter_In, in_map_iff, negb_true_iff. split; (intros [H|(e & H1 & H2)]; [auto|right; exists e; auto]).
  Qed.

  Lemma step_ok L i : i < n -> Forall (okt i) L -> Forall (okt (S i)) (step L i).
  Proof.
    intros Hi HL. apply Forall_forall. intros t Ht. apply in_step in Ht as [[Ht _]|(e & He & ->)].
    - rewrite Forall_forall in HL. apply HL in Ht as [Hs Hx]. split; [easy|]. intros x H. apply Hx in H. unfold okidx in *. lia.
    - apply (poly_ok i L e HL) in He as (H1 & H2 & H3). unfold okidx in *. split.
      + apply sort3_sorted; lia.
      + intros x Hx. apply sort3_in in Hx. unfold okidx. destruct Hx as [->|[->| ->]]; lia.
  Qed.

  Lemma NoDup_poly bad : NoDup bad -> Forall sorted3 bad -> NoDup (poly bad).
  Proof.
    intros Hnd Hs. unfold poly.
    assert (forall l, NoDup l -> incl l bad -> NoDup (flat_map (fun t => filter (freeb bad t) (edges3 t)) l)) as G.
    { induction l as [|t l IH]; intros Hl Hi; cbn; [constructor|]. inversion Hl as [|? ? Hnt Hl']; subst.
      assert (In t bad) as Ht by (apply Hi; now left). rewrite Forall_forall in Hs. pose proof (Hs t Ht) as Hst.
      assert (NoDup (edges3 t)) as He.
      { destruct t as [[a b] c]. cbn in *. repeat constructor; cbn; intuition (try congruence).
        all: repeat match goal with H : _ = _ |- _ => injection H; clear H; intros; subst end; lia. }
      assert (forall (l1 l2 : list (nat * nat)), NoDup l1 -> NoDup l2 -> (forall x, In x l1 -> ~ In x l2) -> NoDup (l1 ++ l2)) as Happ.
      { clear. induction l1 as [|y l1 IH]; intros l2 H1 H2 Hd; cbn; [easy|]. inversion H1; subst. constructor.
        - rewrite in_app_iff. intros [H|H]; [easy|]. apply (Hd y); [now left|easy].
        - apply IH; auto. intros x Hx. apply Hd. now right. }
      apply Happ.
      - now apply NoDup_filter.
      - apply IH; [easy|]. intros u Hu. apply Hi. now right.
      - intros e He1 He2. apply filter_In in He1 as [He1 Hf1]. apply in_flat_map in He2 as (u & Hu & He2).
        apply filter_In in He2 as [He2 Hf2]. rewrite freeb_spec in Hf1.
        assert (u = t) as -> by (apply Hf1; [apply Hi; now right|easy]). easy. }
    apply G; [easy|]. intros x Hx. exact Hx.
  Qed.

  Lemma sort3_inj i x y x' y' : x < y -> x' < y' -> x <> i -> y <> i -> x' <> i -> y' <> i -> sort3 x y i = sort3 x' y' i -> (x, y) = (x', y').
  Proof.
    intros. assert (forall z, (z = x \/ z = y \/ z = i) <-> (z = x' \/ z = y' \/ z = i)) as E.
    { intros z. rewrite <- !sort3_in. now rewrite H5. }
    pose proof (proj1 (E x) ltac:(auto)). pose proof (proj1 (E y) ltac:(auto)).
    pose proof (proj2 (E x') ltac:(auto)). pose proof (proj2 (E y') ltac:(auto)). f_equal; lia.
  Qed.

  Lemma step_NoDup L i : i < n -> Forall (okt i) L -> NoDup L -> NoDup (step L i).
  Proof.
    intros Hi HL Hnd. unfold step.
    assert (forall (l1 l2 : list tri), NoDup l1 -> NoDup l2 -> (forall x, In x l1 -> ~ In x l2) -> NoDup (l1 ++ l2)) as Happ.
    { clear. induction l1 as [|y l1 IH]; intros l2 H1 H2 Hd; cbn; [easy|]. inversion H1; subst. constructor.
      - rewrite in_app_iff. intros [H|H]; [easy|]. apply (Hd y); [now left|easy].
      - apply IH; auto. intros x Hx. apply Hd. now right. }
    apply Happ.
    - now apply NoDup_filter.
    - assert (forall l, NoDup l -> (forall e, In e l -> fst e < snd e /\ okidx i (fst e) /\ okidx i (snd e)) -> NoDup (map (fun e => sort3 (fst e) (snd e) i) l)) as G.
      { induction l as [|e l IH]; intros Hl Hok; cbn; [constructor|]. inversion Hl; subst. constructor.
        - intros H. apply in_map_iff in H as (e' & E & He'). destruct (Hok e ltac:(now left)) as (A1 & A2 & A3).
          destruct (Hok e' ltac:(now right)) as (B1 & B2 & B3). unfold okidx in *.
          destruct e as [x y], e' as [x' y']. cbn [fst snd] in *. apply sort3_inj in E; try lia. congruence.
        - apply IH; [easy|]. intros e' He'. apply Hok. now right. }
      apply G.
      + apply NoDup_poly; [now apply NoDup_filter|]. apply Forall_forall. intros t Ht. apply filter_In in Ht as [Ht _].
        rewrite Forall_forall in HL. now apply HL.
      + intros e He. now apply (poly_ok i L).
    - intros t Ht Ht'. apply filter_In in Ht as [Ht _]. apply in_map_iff in Ht' as (e & <- & _).
      rewrite Forall_forall in HL. apply HL in Ht as [_ Hx]. specialize (Hx i). rewrite sort3_in in Hx. unfold okidx in Hx. lia.
  Qed.

  (** All insertions. *)
  Fixpoint run (k : nat) : list tri := match k with O => [(n, n + 1, n + 2)] | S k' => step (run k') k' end.

  Lemma run_ok k : k <= n -> Forall (okt k) (run k).
  Proof.
    induction k as [|k IH]; intros Hk; cbn [run].
    - constructor; [|constructor]. split; [cbn; lia|]. cbn. intros x Hx. unfold okidx. lia.
    - apply step_ok; [lia|apply IH; lia].
  Qed.
  Lemma run_NoDup k : k <= n -> NoDup (run k).
  Proof.
    induction k as [|k IH]; intros Hk; cbn [run]; [repeat constructor; auto|].
    apply step_NoDup; [lia|apply run_ok; lia|apply IH; lia].
  Qed.

  Lemma full_eq : full_triangulation N points orig = Some (run n).
  Proof.
    unfold full_triangulation. cbn zeta.
    assert (forall k, k <= n -> ofold (insert_point N points orig) (seq 0 k) [(n, n + 1, n + 2)] = Some (run k)) as G; [|now apply G].
    induction k as [|k IH]; intros Hk; [reflexivity|]. rewrite seq_S. rewrite ofold_app, IH by lia. cbn [ofold obind Nat.add].
    rewrite insert_point_eq; [reflexivity|lia|apply run_ok; lia].
  Qed.

  (** Each triangle fails the test for every point inserted after its last vertex. *)
  Lemma run_later k t j : k <= n -> In t (run k) -> (forall x, In x (tri_list t) -> x < n -> x < j) -> j < k -> badb j t = false.
  Proof.
    revert t j. induction k as [|k IH]; intros t j Hk Ht Hx Hj; [lia|]. cbn [run] in Ht. apply in_step in Ht as [[Ht Hb]|(e & He & ->)].
    - destruct (Nat.eq_dec j k) as [->|]; [easy|]. apply IH; [lia|easy|easy|lia].
    - specialize (Hx k). rewrite sort3_in in Hx. lia.
  Qed.

  Definition tripos (t : tri) : triangle N := let '(a, b, c) := t in (pos a, pos b, pos c).
  Lemma out_triangle_eq t : okt n t -> inner N points t = true -> out_triangle N points t = Some (tripos t).
  Proof.
    intros [Hs Hx] Hi. destruct t as [[a b] c]. unfold inner in Hi. cbn [forallb tri_list] in Hi. cbn in Hs. rewrite !andb_true_iff, !Nat.ltb_lt in Hi.
    unfold out_triangle. destruct (Nat.eqb_spec a b), (Nat.eqb_spec a c), (Nat.eqb_spec b c); try lia. cbn [negb andb].
    rewrite !nth_pos by lia. reflexivity.
  Qed.
End Run.

Theorem delaunay_eq N points orig : original_points N points = Some orig ->
  delaunay_triangulation N points =
  Some (map (tripos N points orig) (filter (inner N points) (run N points orig (length points))),
        filter (inner N points) (run N points orig (length points))).
Proof.
  intros Ho. unfold delaunay_triangulation. rewrite Ho. cbn [obind]. rewrite full_eq. cbn [obind].
  rewrite (ofold_push _ (tripos N points orig)).
  2:{ intros t Ht. apply filter_In in Ht as [Ht Hi]. apply out_triangle_eq; [|easy].
      pose proof (run_ok N points orig (length points) (le_n _)) as H. rewrite Forall_forall in H. auto. }
  reflexivity.
Qed.

Lemma max_by_total N l : l <> [] -> (forall x y, In x l -> In y l -> ncmp N x y <> None) -> exists m, max_by N l = Some m /\ In m l.
Proof.
  destruct l as [|x l]; [easy|]. intros _ H. cbn [max_by].
  assert (forall l' m, incl l' (x :: l) -> In m (x :: l) -> exists r, ofold (max_step N) l' m = Some r /\ In r (x :: l)) as G.
  { induction l' as [|y l' IH]; intros m Hi Hm; cbn; [exists m; auto|].
    unfold max_step at 1. destruct (ncmp N m y) eqn:E; [|exfalso; revert E; apply H; [easy|apply Hi; now left]]. cbn.
    apply IH; [intros z Hz; apply Hi; now right|]. destruct c; try easy; apply Hi; now left. }
  apply G; [intros y Hy; now right|now left].
Qed.
