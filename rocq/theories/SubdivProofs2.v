(** [subdivided_graph_from]: keys, counts, the result. *)
From Coq Require Import List Arith ZArith NArith Bool Lia ZifyBool ZifyNat ZifyN String Permutation.
From Verif Require Import UtilModel PidModel PermModel PermSpec PermProofs PermProofs2 PermProofs3 MatModel MatProofs SnfModel SnfProofs2 GraphModel GraphSpec GraphProofs GraphProofs5 GraphProofs8 LabGraphModel LabGraphSpec LabGraphProofs LabGraphProofs2 SubdivSpec SubdivProofs.
Import ListNotations.
Open Scope nat_scope.

(** ** Lists *)
Lemma length_flat_map {A B} (f : A -> list B) l : List.length (flat_map f l) = list_sum (map (fun x => List.length (f x)) l).
Proof. induction l as [|x l IH]; [reflexivity|]. cbn [flat_map map]. rewrite app_length, IH. reflexivity. Qed.
Lemma list_sum_flat_map {A B} (g : B -> nat) (f : A -> list B) l : list_sum (map g (flat_map f l)) = list_sum (map (fun x => list_sum (map g (f x))) l).
Proof. induction l as [|x l IH]; [reflexivity|]. cbn [flat_map map]. rewrite map_app, list_sum_app, IH. reflexivity. Qed.
Lemma list_sum_plus {A} (f g : A -> nat) l : list_sum (map (fun x => f x + g x) l) = list_sum (map f l) + list_sum (map g l).
Proof. induction l as [|x l IH]; [reflexivity|]. change (list_sum (map ?h (x :: l))) with (h x + list_sum (map h l)). cbv beta. rewrite IH. lia. Qed.
Lemma list_sum_times {A} (f : A -> nat) c l : list_sum (map (fun x => f x * c) l) = list_sum (map f l) * c.
Proof. induction l as [|x l IH]; [reflexivity|]. change (list_sum (map ?h (x :: l))) with (h x + list_sum (map h l)). cbv beta. rewrite IH. lia. Qed.
Lemma NoDup_flat_map {A B} (f : A -> list B) l : NoDup l -> (forall x, In x l -> NoDup (f x)) -> (forall x y z, In x l -> In y l -> In z (f x) -> In z (f y) -> x = y) -> NoDup (flat_map f l).
Proof.
  induction 1 as [|x l Hx Hl IH]; intros H1 H2; cbn [flat_map]; [constructor|]. apply NoDup_app_disj; [apply H1; now left|apply IH; [intros; apply H1; now right|intros a b z Ha Hb; apply H2; now right]|].
  intros z Hz K. apply in_flat_map in K. destruct K as (y & Hy & K). assert (x = y) by (apply (H2 x y z); auto; [now left|now right]). subst y. contradiction.
Qed.
Lemma filter_one {A} (f : A -> bool) l p : NoDup l -> In p l -> (forall q, In q l -> (f q = true <-> q = p)) -> List.length (filter f l) = 1.
Proof.
  induction 1 as [|x l Hx Hl IH]; [intros []|]. intros Hp HF. cbn [filter]. destruct (f x) eqn:E.
  - apply HF in E; [|now left]. subst x. cbn [List.length]. f_equal. replace (filter f l) with (@nil A); [reflexivity|]. symmetry. destruct (filter f l) as [|y r] eqn:K; [reflexivity|].
    assert (Hy : In y (filter f l)) by (rewrite K; now left). apply filter_In in Hy. destruct Hy as [Hy Ey]. apply HF in Ey; [|now right]. subst y. contradiction.
  - apply IH; [destruct Hp as [Hp|Hp]; [subst x|exact Hp]|intros; apply HF; now right]. assert (f p = true) by (apply HF; [now left|reflexivity]). congruence.
Qed.
Lemma filter_none {A} (f : A -> bool) l : (forall q, In q l -> f q = false) -> List.length (filter f l) = 0.
Proof. induction l as [|x l IH]; intros H; [reflexivity|]. cbn [filter]. rewrite H by now left. apply IH. intros; apply H; now right. Qed.
Lemma double_count {A B} (q : A -> B -> bool) (P : list A) (es : list B) :
  list_sum (map (fun p => List.length (filter (q p) es)) P) = list_sum (map (fun e => List.length (filter (fun p => q p e) P)) es).
Proof.
  induction es as [|e es IH]; [induction P as [|p P IHP]; [reflexivity|exact IHP]|]. change (list_sum (map ?h (e :: es))) with (h e + list_sum (map h es)). cbv beta. rewrite <- IH. clear IH.
  induction P as [|p P IHP]; [reflexivity|]. change (list_sum (map ?h (p :: P))) with (h p + list_sum (map h P)). cbv beta. rewrite IHP. cbn [filter]. destruct (q p e); cbn [List.length]; lia.
Qed.

(** ** Keys *)
Section Keys.
  Variable es : list (string * string).
  Let labels := registered es.
  Let n := List.length labels.
  Let lab i := nth i labels EmptyString.
  Definition ccell (i j : nat) : nat := mcell (registered es) es i j.
  Definition key_row (i : nat) : list (nat * nat * nat) :=
    flat_map (fun j => map (fun k => (i, j, k)) (seq 0 (ccell i j))) (rng (i + 1) (List.length (registered es))) ++ map (fun k => (i, i, k)) (seq 0 (ccell i i)).
  Definition keys : list (nat * nat * nat) := flat_map key_row (seq 0 (List.length (registered es))).
  Lemma ccell_le i j : i <= j -> ccell i j = mult es (lab i) (lab j).
  Proof. intros H. unfold ccell, mcell. now replace (i <=? j) with true by lia. Qed.
  Lemma in_rng a b x : In x (rng a b) <-> a <= x < b.
  Proof. rewrite rng_seq, in_seq. lia. Qed.
  Lemma in_row r i j k : In (i, j, k) (key_row r) <-> i = r /\ (r < j < n \/ j = r) /\ k < ccell i j.
  Proof.
    unfold key_row. rewrite in_app_iff, in_flat_map. split.
    - intros [(j' & Hj & H)|H]; apply in_map_iff in H; destruct H as (k' & [= <- <- <-] & Hk); apply in_seq in Hk; [apply in_rng in Hj; split; [reflexivity|]; split; [left; fold labels n in Hj; lia|lia]|split; [reflexivity|]; split; [now right|lia]].
    - intros (-> & [H| ->] & Hk); [left; exists j; split; [apply in_rng; fold labels n; lia|]|right]; apply in_map_iff; exists k; (split; [reflexivity|apply in_seq; lia]).
  Qed.
  Lemma in_keys i j k : In (i, j, k) keys <-> i <= j /\ j < n /\ k < mult es (lab i) (lab j).
  Proof.
    unfold keys. rewrite in_flat_map. split.
    - intros (r & Hr & H). apply in_seq in Hr. fold labels n in Hr. apply in_row in H. destruct H as (-> & H & Hk). rewrite ccell_le in Hk by lia. split; [lia|]. split; [lia|exact Hk].
    - intros (H1 & H2 & H3). exists i. split; [apply in_seq; fold labels n; lia|]. apply in_row. rewrite ccell_le by exact H1. repeat split; (lia || auto).
  Qed.
  Lemma map_inj_NoDup {A B} (f : A -> B) l : (forall x y, f x = f y -> x = y) -> NoDup l -> NoDup (map f l).
  Proof. intros H. induction 1 as [|x l Hx Hl IH]; cbn [map]; constructor; [|exact IH]. rewrite in_map_iff. intros (y & E & K). apply H in E. congruence. Qed.
  Lemma keys_NoDup : NoDup keys.
  Proof.
    unfold keys. apply NoDup_flat_map; [apply seq_NoDup| |].
    - intros r _. unfold key_row. apply NoDup_app_disj.
      + apply NoDup_flat_map; [rewrite rng_seq; apply seq_NoDup|intros j _; apply map_inj_NoDup; [intros x y [= H]; exact H|apply seq_NoDup]|].
        intros x y z _ _ H1 H2. apply in_map_iff in H1, H2. destruct H1 as (k1 & E1 & _), H2 as (k2 & E2 & _). congruence.
      + apply map_inj_NoDup; [intros x y [= H]; exact H|apply seq_NoDup].
      + intros z H1 H2. apply in_flat_map in H1. destruct H1 as (j & Hj & H1). apply in_map_iff in H1, H2. destruct H1 as (k1 & <- & _), H2 as (k2 & E2 & _). apply in_rng in Hj. injection E2 as E2 _. lia.
    - intros x y [[i j] k] _ _ H1 H2. apply in_row in H1, H2. destruct H1 as [H1 _], H2 as [H2 _]. congruence.
  Qed.
  (** The number of keys of the two kinds. *)
  Definition updiag : list (nat * nat) := flat_map (fun i => map (pair i) (rng (i + 1) (List.length (registered es)))) (seq 0 (List.length (registered es))).
  Lemma in_updiag i j : In (i, j) updiag <-> i < j /\ j < n.
  Proof.
    unfold updiag. rewrite in_flat_map. split.
    - intros (r & Hr & H). apply in_map_iff in H. destruct H as (x & [= <- <-] & Hx). apply in_rng in Hx. fold labels n in Hx. lia.
    - intros [H1 H2]. exists i. split; [apply in_seq; fold labels n; lia|]. apply in_map_iff. exists j. split; [reflexivity|]. apply in_rng. fold labels n. lia.
  Qed.
  Lemma updiag_NoDup : NoDup updiag.
  Proof.
    unfold updiag. apply NoDup_flat_map; [apply seq_NoDup|intros r _; apply map_inj_NoDup; [intros x y [= H]; exact H|rewrite rng_seq; apply seq_NoDup]|].
    intros x y z _ _ H1 H2. apply in_map_iff in H1, H2. destruct H1 as (k1 & E1 & _), H2 as (k2 & E2 & _). congruence.
  Qed.
  Lemma lab_inj i j : i < n -> j < n -> lab i = lab j -> i = j.
  Proof. apply label_inj, registered_NoDup. Qed.
  Lemma lab_of e : In e es -> exists i j, i < n /\ j < n /\ lab i = fst e /\ lab j = snd e.
  Proof.
    intros He. destruct (In_nth labels (fst e) EmptyString) as (i & Hi & Ei); [apply registered_in; exists e; auto|]. destruct (In_nth labels (snd e) EmptyString) as (j & Hj & Ej); [apply registered_in; exists e; auto|]. exists i, j. auto.
  Qed.
  Lemma count_non_loops : list_sum (map (fun p => ccell (fst p) (snd p)) updiag) = List.length (non_loops es).
  Proof.
    rewrite (map_ext_in _ (fun p => List.length (filter (same_ends (lab (fst p), lab (snd p))) es))).
    2: { intros [i j] H. apply in_updiag in H. cbn [fst snd]. rewrite ccell_le by lia. reflexivity. }
    rewrite (double_count (fun p => same_ends (lab (fst p), lab (snd p)))). unfold non_loops.
    assert (K : forall e, In e es -> List.length (filter (fun p => same_ends (lab (fst p), lab (snd p)) e) updiag) = if negb (is_loop e) then 1 else 0).
    { intros e He. destruct (lab_of e He) as (i & j & Hi & Hj & Ei & Ej). unfold is_loop. destruct (String.eqb_spec (fst e) (snd e)) as [E|N]; cbn [negb].
      - apply filter_none. intros [a b] H. apply in_updiag in H. cbn [fst snd]. destruct (same_ends (lab a, lab b) e) eqn:K; [|reflexivity]. apply same_ends_iff in K. cbn [fst snd] in K. assert (Q : lab a = lab b) by (destruct K as [[K1 K2]|[K1 K2]]; congruence). apply lab_inj in Q; lia.
      - assert (i <> j) by (intros ->; congruence). apply (filter_one _ _ (Nat.min i j, Nat.max i j)); [apply updiag_NoDup|apply in_updiag; lia|]. intros [a b] H0. apply in_updiag in H0. cbn [fst snd]. rewrite same_ends_iff. cbn [fst snd]. rewrite <- Ei, <- Ej. split.
        + intros [[K1 K2]|[K1 K2]]; apply lab_inj in K1, K2; try lia; subst; f_equal; lia.
        + intros [= -> ->]. destruct (Nat.le_ge_cases i j); [left; rewrite Nat.min_l, Nat.max_r by lia|right; rewrite Nat.min_r, Nat.max_l by lia]; auto. }
    assert (G : forall l, incl l es -> list_sum (map (fun e => List.length (filter (fun p => same_ends (lab (fst p), lab (snd p)) e) updiag)) l) = List.length (filter (fun e => negb (is_loop e)) l)).
    { induction l as [|e l IH]; intros HI; [reflexivity|]. change (list_sum (map ?h (e :: l))) with (h e + list_sum (map h l)). cbv beta. rewrite IH by (intros x Hx; apply HI; now right). rewrite K by (apply HI; now left). cbn [filter]. destruct (negb (is_loop e)); reflexivity. }
    apply G, incl_refl.
  Qed.
  Lemma count_loops : list_sum (map (fun i => ccell i i) (seq 0 n)) = List.length (loops es).
  Proof.
    rewrite (map_ext_in _ (fun i => List.length (filter (same_ends (lab i, lab i)) es))).
    2: { intros i H. rewrite ccell_le by lia. reflexivity. }
    rewrite (double_count (fun i => same_ends (lab i, lab i))). unfold loops.
    assert (K : forall e, In e es -> List.length (filter (fun i => same_ends (lab i, lab i) e) (seq 0 n)) = if is_loop e then 1 else 0).
    { intros e He. destruct (lab_of e He) as (i & j & Hi & Hj & Ei & Ej). destruct (is_loop e) eqn:E.
      - apply (filter_one _ _ i); [apply seq_NoDup|apply in_seq; lia|]. intros a Ha. apply in_seq in Ha. rewrite same_ends_loop. split; [intros [_ Q]; apply lab_inj; (lia || congruence)|intros ->; auto].
      - apply filter_none. intros a Ha. destruct (same_ends (lab a, lab a) e) eqn:Q; [|reflexivity]. apply same_ends_loop in Q. destruct Q. congruence. }
    assert (G : forall l, incl l es -> list_sum (map (fun e => List.length (filter (fun i => same_ends (lab i, lab i) e) (seq 0 n))) l) = List.length (filter is_loop l)).
    { induction l as [|e l IH]; intros HI; [reflexivity|]. change (list_sum (map ?h (e :: l))) with (h e + list_sum (map h l)). cbv beta. rewrite IH by (intros x Hx; apply HI; now right). rewrite K by (apply HI; now left). cbn [filter]. destruct (is_loop e); reflexivity. }
    apply G, incl_refl.
  Qed.
  Lemma count_keys m : List.length (flat_map (key_vertices labels m) keys) = List.length (non_loops es) * Nat.max (m - 2) 1 + List.length (loops es) * m.
  Proof.
    rewrite length_flat_map. unfold keys. rewrite list_sum_flat_map. set (mid := Nat.max (m - 2) 1).
    rewrite (map_ext_in _ (fun i => list_sum (map (fun j => ccell i j) (rng (i + 1) n)) * mid + ccell i i * m)).
    - rewrite list_sum_plus, !list_sum_times. fold labels n. rewrite count_loops. f_equal. f_equal. rewrite <- count_non_loops. unfold updiag. rewrite list_sum_flat_map. f_equal. apply map_ext. intros i. rewrite map_map. reflexivity.
    - intros i _. unfold key_row. rewrite map_app, list_sum_app, list_sum_flat_map. f_equal.
      + rewrite <- list_sum_times. f_equal. apply map_ext_in. intros j Hj. apply in_rng in Hj. rewrite map_map. rewrite (map_ext _ (fun _ => mid)).
        * generalize (seq 0 (ccell i j)) (seq_length (ccell i j) 0). intros l <-. induction l as [|x l IH]; [reflexivity|]. change (list_sum (map ?h (x :: l))) with (h x + list_sum (map h l)). cbn [List.length]. rewrite IH. lia.
        * intros k. unfold key_vertices, chain_vertices. rewrite map_length, seq_length. now replace (i =? j) with false by lia.
      + rewrite map_map. rewrite (map_ext _ (fun _ => m)).
        * generalize (seq 0 (ccell i i)) (seq_length (ccell i i) 0). intros l <-. induction l as [|x l IH]; [reflexivity|]. change (list_sum (map ?h (x :: l))) with (h x + list_sum (map h l)). cbn [List.length]. rewrite IH. lia.
        * intros k. unfold key_vertices, chain_vertices. rewrite map_length, seq_length. now rewrite Nat.eqb_refl.
  Qed.

  (** ** The nested loops are one loop over the keys *)
  Variable gr : lgraph.
  Hypothesis Hgr : graph_from es = Some gr.
  Lemma gr_fields : lg_labels gr = labels /\ lg_data gr = gtab es /\ lg_non_loop gr = List.length (non_loops es) /\ lg_loops gr = List.length (loops es).
  Proof. pose proof Hgr as E. rewrite graph_from_spec in E. destruct (_ <=? _); [|discriminate E]. injection E as <-. auto. Qed.
  Lemma push_cell_keys m i j mid den st : i < n -> j < n -> mid = (if i =? j then m else Nat.max (m - 2) 1) -> den = (if i =? j then m + 1 else m - 1) ->
    push_cell gr i j mid den st = foldM (push_key labels m) (map (fun k => (i, j, k)) (seq 0 (ccell i j))) st.
  Proof.
    intros Hi Hj -> ->. unfold push_cell. destruct gr_fields as (EL & ED & _). rewrite ED, EL. unfold gtab. rewrite cell_tab by assumption. cbn [obind].
    rewrite (nth_error_nth' labels EmptyString Hi), (nth_error_nth' labels EmptyString Hj). cbn [obind]. rewrite foldM_map. reflexivity.
  Qed.
  Lemma subdivide_keys m st : foldM (push_row gr m) (seq 0 (lg_n_vertices gr)) st = foldM (push_key labels m) keys st.
  Proof.
    unfold keys. rewrite foldM_flat_map. unfold lg_n_vertices. destruct gr_fields as (EL & _). rewrite EL. fold labels. apply foldM_ext. intros s i Hi. apply in_seq in Hi. fold n in Hi.
    unfold push_row, key_row. unfold lg_n_vertices. rewrite EL. rewrite foldM_app, foldM_flat_map. fold labels n.
    rewrite (foldM_ext _ (fun s0 x => foldM (push_key labels m) (map (fun k => (i, x, k)) (seq 0 (ccell i x))) s0)).
    - destruct (foldM _ (rng (i + 1) n) s); cbn [obind]; [|reflexivity]. apply push_cell_keys; [lia|lia|now rewrite Nat.eqb_refl|now rewrite Nat.eqb_refl].
    - intros s0 j Hj. apply in_rng in Hj. apply push_cell_keys; [lia|lia| |]; now replace (i =? j) with false by lia.
  Qed.
  Definition sub_list (m : nat) : list svertex := map Essential (registered es) ++ flat_map (key_vertices (registered es) m) keys.
  Lemma subdivide_spec m : 2 <= m -> es <> [] -> exists g, subdivide gr m = Some (g, sub_list m) /\ shows (sub_n_vertices gr m) g (sub_list m) (flat_map (key_edges labels m) keys) /\ List.length (sub_list m) = sub_n_vertices gr m.
  Proof.
    intros Hm Hes. destruct gr_fields as (EL & ED & E1 & E2).
    assert (HN : sub_n_vertices gr m = n + List.length (flat_map (key_vertices labels m) keys)).
    { unfold sub_n_vertices, lg_n_vertices. rewrite EL, E1, E2, count_keys. fold n. lia. }
    assert (Hn : 0 < n).
    { assert (HE : exists e, In e es) by (clear - Hes; destruct es as [|e r]; [contradiction|exists e; now left]). destruct HE as (e & He). destruct (lab_of e He) as (i & _ & Hi & _). lia. }
    unfold subdivide. destruct (new_GI (sub_n_vertices gr m) ltac:(lia)) as (g0 & -> & HG & N0 & T0 & R0). cbn [obind]. rewrite subdivide_keys, EL.
    destruct (push_keys labels m (registered_NoDup es) Hm (sub_n_vertices gr m) keys [] g0) as (g & E & S).
    - apply keys_NoDup.
    - intros [[i j] k] H. apply in_keys in H. cbn [fst snd]. fold n. lia.
    - cbn [flat_map]. rewrite app_nil_r. constructor; auto.
      + apply map_inj_NoDup; [intros x y [= H]; exact H|apply registered_NoDup].
      + rewrite map_length. fold labels n. lia.
      + intros u v [].
      + intros x y. rewrite R0. split; [discriminate|]. intros (u & v & _ & _ & [[]|[]]).
    - cbn [app]. fold n. lia.
    - cbn [app flat_map] in *. rewrite app_nil_r in E. exists g. split; [exact E|]. split; [exact S|]. unfold sub_list. rewrite app_length, map_length. fold labels n. lia.
  Qed.
End Keys.
