(** Graphs as relations: the basic operations. *)
From Coq Require Import List Arith NArith Bool Lia ZifyBool ZifyNat ZifyN Permutation.
From Verif Require Import UtilModel UtilSpec UtilProofs PidModel PermModel MatModel SnfModel SnfProofs2 GraphModel GraphSpec.
Import ListNotations.
Open Scope nat_scope.

(** Triangular numbers. *)
Definition tri (n : nat) : nat := n * (n - 1) / 2.
Lemma tri_S n : tri (S n) = tri n + n.
Proof.
  unfold tri. destruct n as [|n]; [reflexivity|]. replace (S (S n) * (S (S n) - 1)) with (S n * (S n - 1) + S n * 2) by (replace (S (S n) - 1) with (S n) by lia; replace (S n - 1) with n by lia; ring). now rewrite Nat.div_add by lia.
Qed.
Lemma tri_mono n m : n <= m -> tri n <= tri m.
Proof. induction 1 as [|m H IH]; [lia|]. rewrite tri_S. lia. Qed.
Lemma idx_lt i j n : i < j -> j < n -> tri j + i < tri n.
Proof. intros H1 H2. pose proof (tri_mono (S j) n H2) as H. rewrite tri_S in H. lia. Qed.
Lemma idx_inj i j i' j' : i < j -> i' < j' -> tri j + i = tri j' + i' -> i = i' /\ j = j'.
Proof.
  intros H1 H2 E. destruct (Nat.lt_trichotomy j j') as [H|[H|H]].
  - pose proof (idx_lt i j j' H1 H). lia.
  - subst j'. lia.
  - pose proof (idx_lt i' j' j H2 H). lia.
Qed.
Lemma idx_ge i j n : n <= j -> tri n <= tri j + i.
Proof. intros H. pose proof (tri_mono n j H). lia. Qed.
Lemma shift_seq t n : map (fun x => t + x) (seq 0 n) = seq t n.
Proof.
  assert (H : forall a, map (fun x => t + x) (seq a n) = seq (t + a) n); [|rewrite H, Nat.add_0_r; reflexivity].
  induction n as [|m IH]; intros a; [reflexivity|]. cbn [seq map]. f_equal. rewrite IH. f_equal. lia.
Qed.
Lemma seq_tri n : map (fun p => tri (snd p) + fst p) (pairs n) = seq 0 (tri n).
Proof.
  unfold pairs. induction n as [|n IH]; [reflexivity|]. rewrite seq_S, flat_map_app, map_app, IH. cbn [flat_map]. rewrite app_nil_r, map_map. cbn [fst snd].
  rewrite tri_S, (seq_app (tri n) n). f_equal. cbn [Nat.add]. apply shift_seq.
Qed.
Lemma in_pairs n i j : In (i, j) (pairs n) <-> i < j /\ j < n.
Proof.
  unfold pairs. rewrite in_flat_map. split.
  - intros (k & Hk & H). apply in_seq in Hk. apply in_map_iff in H. destruct H as (m & [= -> ->] & Hm). apply in_seq in Hm. lia.
  - intros H. exists j. split; [apply in_seq; lia|]. apply in_map_iff. exists i. split; [reflexivity|apply in_seq; lia].
Qed.

(** std [filter] with total tests. *)
Lemma filterM_some {A} (f : A -> option bool) (b : A -> bool) l : (forall x, In x l -> f x = Some (b x)) -> filterM f l = Some (filter b l).
Proof.
  induction l as [|x l IH]; intros H; cbn [filterM filter]; [reflexivity|]. rewrite (H x) by now left. cbn [obind]. rewrite IH by (intros; apply H; now right). cbn [obind]. destruct (b x); reflexivity.
Qed.

(** The pool of a graph on [n] vertices. *)
Record GI (g : rawg) : Prop := {
  GI_inv : Inv (g_data g);
  GI_len : p_len (g_data g) = tri (g_n g);
  GI_pos : 0 < g_n g }.

Lemma contains_eq g i j : GI g -> g_contains g i j = if (i <? j) && (j <? g_n g) then Some (bit (p_data (g_data g)) (tri j + i)) else None.
Proof.
  intros [HI HL HP]. unfold g_contains, raw_idx. destruct (Nat.ltb_spec i j) as [H|H]; [|reflexivity]. cbn [obind andb]. change (j * (j - 1) / 2) with (tri j). rewrite contains_spec by apply HI. rewrite HL.
  destruct (Nat.ltb_spec j (g_n g)) as [H2|H2].
  - pose proof (idx_lt i j _ H H2). replace (tri j + i <? tri (g_n g)) with true by lia. reflexivity.
  - pose proof (idx_ge i j _ H2). replace (tri j + i <? tri (g_n g)) with false by lia. reflexivity.
Qed.
Lemma contains_edge g i j : GI g -> i < j -> j < g_n g -> g_contains g i j = Some (edge g i j).
Proof.
  intros HG H1 H2. unfold edge. rewrite Nat.min_l, Nat.max_r by lia. rewrite contains_eq by assumption. now replace ((i <? j) && (j <? g_n g)) with true by lia.
Qed.
Lemma edge_bit g i j : GI g -> i < j -> j < g_n g -> edge g i j = bit (p_data (g_data g)) (tri j + i).
Proof. intros HG H1 H2. pose proof (contains_edge g i j HG H1 H2) as H. rewrite contains_eq in H by assumption. replace ((i <? j) && (j <? g_n g)) with true in H by lia. congruence. Qed.
Lemma edge_sym g x y : edge g x y = edge g y x.
Proof. unfold edge. now rewrite Nat.min_comm, Nat.max_comm. Qed.
Lemma edge_irrefl g x : edge g x x = false.
Proof. unfold edge. rewrite Nat.min_id, Nat.max_id. unfold g_contains, raw_idx. now rewrite Nat.ltb_irrefl. Qed.
Lemma edge_lt g x y : GI g -> edge g x y = true -> x < g_n g /\ y < g_n g /\ x <> y.
Proof.
  intros HG. unfold edge. rewrite contains_eq by assumption. destruct ((Nat.min x y <? Nat.max x y) && (Nat.max x y <? g_n g)) eqn:E; [|discriminate]. lia.
Qed.
(** Equality of symmetric irreflexive relations can be checked on ordered pairs. *)
Lemma edge_ext_lt g (r : nat -> nat -> bool) : GI g -> (forall x y, r x y = r y x) -> (forall x, r x x = false) -> (forall x y, g_n g <= y -> r x y = false) ->
  (forall i j, i < j -> j < g_n g -> edge g i j = r i j) -> forall x y, edge g x y = r x y.
Proof.
  intros HG Hs Hi Hb H.
  assert (K : forall x y, x < y -> edge g x y = r x y).
  { intros x y Hxy. destruct (Nat.lt_ge_cases y (g_n g)) as [Hy|Hy]; [now apply H|]. rewrite Hb by assumption. destruct (edge g x y) eqn:E; [|reflexivity]. apply edge_lt in E; [lia|assumption]. }
  intros x y. destruct (Nat.lt_trichotomy x y) as [Hxy|[->|Hxy]]; [now apply K|now rewrite edge_irrefl, Hi|]. rewrite edge_sym, Hs. now apply K.
Qed.

Lemma new_GI n : 0 < n -> exists g, g_new n = Some g /\ GI g /\ g_n g = n /\ g_tree g = false /\ forall x y, edge g x y = false.
Proof.
  intros H. unfold g_new. replace (n =? 0) with false by lia. eexists. split; [reflexivity|]. destruct (new_spec (n * (n - 1) / 2)) as (A & B & C).
  assert (HG : GI (RawG (pool_new (n * (n - 1) / 2)) n false)) by (split; [exact A|exact B|exact H]). split; [exact HG|]. split; [reflexivity|]. split; [reflexivity|].
  apply edge_ext_lt; auto. intros i j Hi Hj. rewrite edge_bit by assumption. apply C.
Qed.

Lemma same_pair_sym x y i j : same_pair x y i j = same_pair y x i j.
Proof. unfold same_pair. destruct (x =? i), (y =? j), (x =? j), (y =? i); reflexivity. Qed.

Lemma same_pair_lt a b i j : a < b -> i < j -> same_pair a b i j = (a =? i) && (b =? j).
Proof. intros. unfold same_pair. lia. Qed.

Lemma add_edge_spec g i j : GI g -> i < j -> j < g_n g ->
  exists g', add_edge g i j = Some g' /\ GI g' /\ g_n g' = g_n g /\ g_tree g' = g_tree g /\ forall x y, edge g' x y = same_pair x y i j || edge g x y.
Proof.
  intros HG Hi Hj. unfold add_edge, raw_idx. replace (i <? j) with true by lia. cbn [obind]. change (j * (j - 1) / 2) with (tri j).
  destruct (add_spec (g_data g) (tri j + i) (GI_inv _ HG)) as (d & E & HI & HL & HB); [rewrite (GI_len _ HG); now apply idx_lt|].
  rewrite E. cbn [obind]. eexists. split; [reflexivity|]. assert (HG' : GI (RawG d (g_n g) (g_tree g))) by (split; cbn; [exact HI|rewrite HL; apply GI_len, HG|apply GI_pos, HG]).
  split; [exact HG'|]. split; [reflexivity|]. split; [reflexivity|]. apply edge_ext_lt; cbn [g_n].
  - exact HG'.
  - intros x y. now rewrite same_pair_sym, edge_sym.
  - intros x. rewrite edge_irrefl. unfold same_pair. lia.
  - intros x y Hy. destruct (edge g x y) eqn:Ee; [apply edge_lt in Ee; [lia|assumption]|]. unfold same_pair. lia.
  - intros a b Ha Hb. rewrite edge_bit by assumption. cbn [g_data]. rewrite HB, <- edge_bit by assumption.
    destruct (Nat.eqb_spec (tri b + a) (tri j + i)) as [He|He].
    + apply idx_inj in He; [|assumption|assumption]. destruct He as [-> ->]. unfold same_pair. rewrite !Nat.eqb_refl. reflexivity.
    + replace (same_pair a b i j) with false; [reflexivity|]. symmetry. rewrite same_pair_lt by assumption. destruct (Nat.eqb_spec a i) as [->|]; [|reflexivity]. destruct (Nat.eqb_spec b j) as [->|]; [lia|reflexivity].
Qed.
Lemma remove_edge_spec g i j : GI g -> i < j -> j < g_n g ->
  exists g', remove_edge g i j = Some g' /\ GI g' /\ g_n g' = g_n g /\ g_tree g' = g_tree g /\ forall x y, edge g' x y = negb (same_pair x y i j) && edge g x y.
Proof.
  intros HG Hi Hj. unfold remove_edge, raw_idx. replace (i <? j) with true by lia. cbn [obind]. change (j * (j - 1) / 2) with (tri j).
  destruct (remove_spec (g_data g) (tri j + i) (GI_inv _ HG)) as (d & E & HI & HL & HB); [rewrite (GI_len _ HG); now apply idx_lt|].
  rewrite E. cbn [obind]. eexists. split; [reflexivity|]. assert (HG' : GI (RawG d (g_n g) (g_tree g))) by (split; cbn; [exact HI|rewrite HL; apply GI_len, HG|apply GI_pos, HG]).
  split; [exact HG'|]. split; [reflexivity|]. split; [reflexivity|]. apply edge_ext_lt; cbn [g_n].
  - exact HG'.
  - intros x y. now rewrite same_pair_sym, edge_sym.
  - intros x. now rewrite edge_irrefl, andb_false_r.
  - intros x y Hy. destruct (edge g x y) eqn:Ee; [apply edge_lt in Ee; [lia|assumption]|]. apply andb_false_r.
  - intros a b Ha Hb. rewrite edge_bit by assumption. cbn [g_data]. rewrite HB, <- edge_bit by assumption.
    destruct (Nat.eqb_spec (tri b + a) (tri j + i)) as [He|He].
    + apply idx_inj in He; [|assumption|assumption]. destruct He as [-> ->]. unfold same_pair. rewrite !Nat.eqb_refl. reflexivity.
    + replace (same_pair a b i j) with false; [reflexivity|]. symmetry. rewrite same_pair_lt by assumption. destruct (Nat.eqb_spec a i) as [->|]; [|reflexivity]. destruct (Nat.eqb_spec b j) as [->|]; [lia|reflexivity].
Qed.
Lemma add_edge_bad g i j : GI g -> (i <? j) && (j <? g_n g) = false -> add_edge g i j = None /\ remove_edge g i j = None /\ g_contains g i j = None.
Proof.
  intros HG H. split; [|split]; [| |rewrite contains_eq by assumption; now rewrite H].
  - unfold add_edge, raw_idx. destruct (Nat.ltb_spec i j) as [Hi|Hi]; [|reflexivity]. cbn [obind andb] in *. change (j * (j - 1) / 2) with (tri j).
    rewrite add_oob; [reflexivity|]. rewrite (GI_len _ HG). apply idx_ge. lia.
  - unfold remove_edge, raw_idx. destruct (Nat.ltb_spec i j) as [Hi|Hi]; [|reflexivity]. cbn [obind andb] in *. change (j * (j - 1) / 2) with (tri j).
    rewrite remove_oob; [reflexivity|]. rewrite (GI_len _ HG). apply idx_ge. lia.
Qed.

Lemma adj_spec g v : GI g -> v < g_n g -> adj g v = Some (filter (edge g v) (seq 0 (g_n g))).
Proof.
  intros HG Hv. unfold adj. apply filterM_some. intros c Hc. apply in_seq in Hc. unfold adj_test.
  destruct (Nat.ltb_spec v c); [apply contains_edge; [assumption|lia|lia]|]. destruct (Nat.ltb_spec c v); [rewrite (edge_sym g v c); apply contains_edge; [assumption|lia|lia]|].
  replace c with v by lia. now rewrite edge_irrefl.
Qed.
Lemma adj_bad g v : GI g -> g_n g <= v -> adj g v = None.
Proof.
  intros HG Hv. unfold adj. pose proof (GI_pos _ HG) as Hp. destruct (g_n g) as [|n] eqn:E; [lia|]. cbn [seq filterM]. unfold adj_test.
  replace (v <? 0) with false by lia. replace (0 <? v) with true by lia. rewrite contains_eq by assumption. replace (v <? g_n g) with false by lia. now rewrite andb_false_r.
Qed.
Lemma degree_spec g v : GI g -> degree_of g v = if v <? g_n g then Some (length (filter (edge g v) (seq 0 (g_n g)))) else None.
Proof.
  intros HG. unfold degree_of. destruct (Nat.ltb_spec v (g_n g)); [|replace (g_n g <=? v) with true by lia; reflexivity]. replace (g_n g <=? v) with false by lia. now rewrite adj_spec.
Qed.
Lemma n_edges_spec g : GI g -> g_n_edges g = length (filter (fun p => edge g (fst p) (snd p)) (pairs (g_n g))).
Proof.
  intros HG. unfold g_n_edges, pool_n_elements. rewrite (I_n _ (GI_inv _ HG)). unfold members. rewrite (GI_len _ HG), <- seq_tri.
  assert (Hp : forall p, In p (pairs (g_n g)) -> edge g (fst p) (snd p) = bit (p_data (g_data g)) (tri (snd p) + fst p)).
  { intros [i j] Hp. apply in_pairs in Hp. apply edge_bit; [assumption|apply Hp|apply Hp]. }
  revert Hp. generalize (pairs (g_n g)). intros l. induction l as [|p l IH]; intros Hp; [reflexivity|]. cbn [map filter]. rewrite (Hp p) by now left.
  specialize (IH (fun q H => Hp q (or_intror H))). destruct (bit _ _); cbn [length]; now rewrite IH.
Qed.

(** Graphs are determined by their edges. *)
Lemma graph_ext g h : GI g -> GI h -> g_n g = g_n h -> g_tree g = g_tree h -> (forall x y, edge g x y = edge h x y) -> g = h.
Proof.
  intros HG HH Hn Ht HE. destruct (GI_inv _ HG) as [D W C NN]. destruct (GI_inv _ HH) as [D2 W2 C2 NN2].
  assert (HL : p_len (g_data g) = p_len (g_data h)) by (rewrite (GI_len _ HG), (GI_len _ HH), Hn; reflexivity).
  assert (HB : forall i, bit (p_data (g_data g)) i = bit (p_data (g_data h)) i).
  { intros i. destruct (Nat.lt_ge_cases i (p_len (g_data g))) as [Hi|Hi]; [|rewrite C, C2 by lia; reflexivity].
    assert (Hin : In i (seq 0 (tri (g_n g)))) by (apply in_seq; rewrite <- (GI_len _ HG); lia). rewrite <- seq_tri in Hin. apply in_map_iff in Hin. destruct Hin as ([a b] & <- & Hp). apply in_pairs in Hp. cbn [fst snd].
    rewrite <- !edge_bit; [apply HE|assumption|lia|lia|assumption|lia|lia]. }
  assert (HD : p_data (g_data g) = p_data (g_data h)).
  { apply nth_ext with (d := 0%N) (d' := 0%N); [lia|]. intros k Hk. apply N.bits_inj; intro n.
    destruct (N.lt_ge_cases n 64) as [Hn'|Hn']; [rewrite !bit_of by assumption; apply HB|]. rewrite !bit_high by assumption. reflexivity. }
  destruct g as [[l n d] m t], h as [[l2 n2 d2] m2 t2]. cbn in *. subst. reflexivity.
Qed.

(** ** Composite updates *)
Definition pair_in (x y : nat) (l : list (nat * nat)) : bool := existsb (fun e => same_pair x y (fst e) (snd e)) l.
Lemma add_edges_spec : forall l g, GI g -> Forall (fun e => fst e < snd e /\ snd e < g_n g) l ->
  exists g', add_edges l g = Some g' /\ GI g' /\ g_n g' = g_n g /\ g_tree g' = g_tree g /\ forall x y, edge g' x y = pair_in x y l || edge g x y.
Proof.
  induction l as [|e l IH]; intros g HG HF; [exists g; cbn; auto|]. inversion HF as [|? ? [H1 H2] HF']; subst. unfold add_edges. cbn [foldM].
  destruct (add_edge_spec g _ _ HG H1 H2) as (g1 & E1 & HG1 & N1 & T1 & R1). rewrite E1. cbn [obind].
  destruct (IH g1 HG1) as (g2 & E2 & HG2 & N2 & T2 & R2); [now rewrite N1|]. exists g2. split; [exact E2|]. split; [exact HG2|]. split; [congruence|]. split; [congruence|].
  intros x y. rewrite R2, R1. cbn [pair_in existsb]. fold (pair_in x y l). destruct (pair_in x y l), (same_pair x y (fst e) (snd e)), (edge g x y); reflexivity.
Qed.
Lemma remove_edges_spec : forall l g, GI g -> Forall (fun e => fst e < snd e /\ snd e < g_n g) l ->
  exists g', foldM (fun g e => remove_edge g (fst e) (snd e)) l g = Some g' /\ GI g' /\ g_n g' = g_n g /\ g_tree g' = g_tree g /\ forall x y, edge g' x y = negb (pair_in x y l) && edge g x y.
Proof.
  induction l as [|e l IH]; intros g HG HF; [exists g; cbn; auto|]. inversion HF as [|? ? [H1 H2] HF']; subst. cbn [foldM].
  destruct (remove_edge_spec g _ _ HG H1 H2) as (g1 & E1 & HG1 & N1 & T1 & R1). rewrite E1. cbn [obind].
  destruct (IH g1 HG1) as (g2 & E2 & HG2 & N2 & T2 & R2); [now rewrite N1|]. exists g2. split; [exact E2|]. split; [exact HG2|]. split; [congruence|]. split; [congruence|].
  intros x y. rewrite R2, R1. cbn [pair_in existsb]. fold (pair_in x y l). destruct (pair_in x y l), (same_pair x y (fst e) (snd e)), (edge g x y); reflexivity.
Qed.
Lemma same_ordered x y a b : a <> b -> same_pair x y (fst (ordered a b)) (snd (ordered a b)) = same_pair x y a b.
Proof. intros H. unfold ordered. destruct (a <? b); cbn [fst snd]; [reflexivity|]. unfold same_pair. destruct (x =? a), (y =? b), (x =? b), (y =? a); reflexivity. Qed.
Lemma ordered_ok a b n : a <> b -> a < n -> b < n -> fst (ordered a b) < snd (ordered a b) /\ snd (ordered a b) < n.
Proof. intros. unfold ordered. destruct (Nat.ltb_spec a b); cbn [fst snd]; lia. Qed.
(** Star of edges from [i]. *)
Lemma pair_in_star i l x y : ~ In i l -> pair_in x y (map (ordered i) l) = ((x =? i) && existsb (Nat.eqb y) l) || ((y =? i) && existsb (Nat.eqb x) l).
Proof.
  induction l as [|a l IH]; intros H; [cbn; now rewrite !andb_false_r|]. cbn [map pair_in existsb]. fold (pair_in x y (map (ordered i) l)). rewrite same_ordered by (intros ->; apply H; now left).
  rewrite IH by (intros K; apply H; now right). unfold same_pair. rewrite (Nat.eqb_sym y a), (Nat.eqb_sym x a). destruct (x =? i), (y =? a) eqn:?, (a =? y) eqn:?, (y =? i), (a =? x) eqn:?, (x =? a) eqn:?, (existsb (Nat.eqb y) l), (existsb (Nat.eqb x) l); cbn; try reflexivity; lia.
Qed.
Lemma existsb_adj g v y : GI g -> v < g_n g -> existsb (Nat.eqb y) (filter (edge g v) (seq 0 (g_n g))) = edge g v y.
Proof.
  intros HG Hv. apply eq_iff_eq_true. rewrite existsb_exists. split.
  - intros (z & Hz & E). apply Nat.eqb_eq in E. subst z. apply filter_In in Hz. apply Hz.
  - intros E. exists y. split; [|apply Nat.eqb_refl]. apply filter_In. split; [|exact E]. apply edge_lt in E; [|assumption]. apply in_seq. lia.
Qed.
Lemma adj_not_self g v : ~ In v (filter (edge g v) (seq 0 (g_n g))).
Proof. intros H. apply filter_In in H. destruct H as [_ H]. rewrite edge_irrefl in H. discriminate. Qed.
Lemma star_ok g v : GI g -> v < g_n g -> Forall (fun e => fst e < snd e /\ snd e < g_n g) (map (ordered v) (filter (edge g v) (seq 0 (g_n g)))).
Proof.
  intros HG Hv. apply Forall_forall. intros e He. apply in_map_iff in He. destruct He as (a & <- & Ha). apply filter_In in Ha. destruct Ha as [Ha E]. apply edge_lt in E; [|assumption]. apply ordered_ok; lia.
Qed.

Lemma remove_adj_spec g i : GI g -> i < g_n g ->
  exists g', remove_adj g i = Some g' /\ GI g' /\ g_n g' = g_n g /\ g_tree g' = g_tree g /\ forall x y, edge g' x y = negb (x =? i) && negb (y =? i) && edge g x y.
Proof.
  intros HG Hi. unfold remove_adj. rewrite adj_spec by assumption. cbn [obind]. destruct (remove_edges_spec _ g HG (star_ok g i HG Hi)) as (g' & E & HG' & N & T & R).
  exists g'. split; [exact E|]. split; [exact HG'|]. split; [exact N|]. split; [exact T|]. intros x y. rewrite R, pair_in_star by apply adj_not_self. rewrite !existsb_adj by assumption.
  destruct (Nat.eqb_spec x i) as [->|]; destruct (Nat.eqb_spec y i) as [->|]; cbn [andb orb negb]; rewrite ?edge_irrefl; try reflexivity.
  - destruct (edge g i y); reflexivity.
  - rewrite (edge_sym g x i). destruct (edge g i x); reflexivity.
Qed.
Lemma tau_lt i j x n : i < n -> j < n -> x < n -> tau i j x < n.
Proof. unfold tau. destruct (x =? i); [auto|]. destruct (x =? j); auto. Qed.

Lemma tau_pair g i j x y : same_pair x y i j = true -> edge g (tau i j x) (tau i j y) = edge g i j.
Proof.
  intros H. unfold same_pair in H. assert (E : (x = i /\ y = j) \/ (x = j /\ y = i)) by lia. clear H. unfold tau. destruct E as [[E1 E2]|[E1 E2]]; rewrite E1, E2, ?Nat.eqb_refl.
  - destruct (Nat.eqb_spec j i) as [E|]; [rewrite E; reflexivity|apply edge_sym].
  - destruct (Nat.eqb_spec j i) as [E|]; [rewrite E; reflexivity|reflexivity].
Qed.

Lemma swap_spec g i j : GI g -> i < j -> j < g_n g ->
  exists g', g_swap g i j = Some g' /\ GI g' /\ g_n g' = g_n g /\ g_tree g' = g_tree g /\ forall x y, edge g' x y = edge g (tau i j x) (tau i j y).
Proof.
  intros HG Hi Hj. unfold g_swap. replace ((i <? j) && (j <? g_n g)) with true by lia. cbn [negb]. rewrite contains_edge by assumption. cbn [obind].
  rewrite (adj_spec g i) by (assumption || lia). rewrite (adj_spec g j) by assumption. cbn [obind].
  destruct (remove_adj_spec g i HG) as (g1 & E1 & HG1 & N1 & T1 & R1); [lia|]. rewrite E1. cbn [obind].
  destruct (remove_adj_spec g1 j HG1) as (g2 & E2 & HG2 & N2 & T2 & R2); [lia|]. rewrite E2. cbn [obind].
  set (ti := filter (fun v => negb (v =? j)) (filter (edge g i) (seq 0 (g_n g)))). set (tj := filter (fun v => negb (v =? i)) (filter (edge g j) (seq 0 (g_n g)))).
  assert (Hti : ~ In j ti) by (intros H; apply filter_In in H; destruct H as [_ H]; rewrite Nat.eqb_refl in H; discriminate).
  assert (Htj : ~ In i tj) by (intros H; apply filter_In in H; destruct H as [_ H]; rewrite Nat.eqb_refl in H; discriminate).
  assert (Eti : forall y, existsb (Nat.eqb y) ti = negb (y =? j) && edge g i y).
  { intros y. rewrite <- (existsb_adj g i y) by (assumption || lia). unfold ti. generalize (filter (edge g i) (seq 0 (g_n g))). intros l. induction l as [|a l IH]; cbn [filter existsb]; [now rewrite andb_false_r|].
    destruct (Nat.eqb_spec a j) as [->|]; cbn [negb existsb]; rewrite IH; destruct (Nat.eqb_spec y j) as [->|]; cbn [negb andb]; try reflexivity.
    destruct (Nat.eqb_spec j a) as [->|]; [lia|reflexivity]. }
  assert (Etj : forall y, existsb (Nat.eqb y) tj = negb (y =? i) && edge g j y).
  { intros y. rewrite <- (existsb_adj g j y) by (assumption || lia). unfold tj. generalize (filter (edge g j) (seq 0 (g_n g))). intros l. induction l as [|a l IH]; cbn [filter existsb]; [now rewrite andb_false_r|].
    destruct (Nat.eqb_spec a i) as [->|]; cbn [negb existsb]; rewrite IH; destruct (Nat.eqb_spec y i) as [->|]; cbn [negb andb]; try reflexivity.
    destruct (Nat.eqb_spec i a) as [->|]; [lia|reflexivity]. }
  destruct (add_edges_spec (map (ordered j) ti) g2 HG2) as (g3 & E3 & HG3 & N3 & T3 & R3).
  { apply Forall_forall. intros e He. apply in_map_iff in He. destruct He as (a & <- & Ha). apply filter_In in Ha. destruct Ha as [Ha Hne]. apply filter_In in Ha. destruct Ha as [Ha _]. apply in_seq in Ha. apply ordered_ok; lia. }
  rewrite E3. cbn [obind]. destruct (add_edges_spec (map (ordered i) tj) g3 HG3) as (g4 & E4 & HG4 & N4 & T4 & R4).
  { apply Forall_forall. intros e He. apply in_map_iff in He. destruct He as (a & <- & Ha). apply filter_In in Ha. destruct Ha as [Ha Hne]. apply filter_In in Ha. destruct Ha as [Ha _]. apply in_seq in Ha. apply ordered_ok; lia. }
  rewrite E4. cbn [obind].
  assert (R : forall x y, edge g4 x y = if same_pair x y i j then false else edge g (tau i j x) (tau i j y)).
  { intros x y. rewrite R4, R3, R2, R1. rewrite !pair_in_star by assumption. rewrite !Eti, !Etj. unfold same_pair, tau.
    destruct (Nat.eqb_spec x i) as [->|Xi]; destruct (Nat.eqb_spec y i) as [->|Yi]; rewrite ?Nat.eqb_refl; replace (i =? j) with false by lia; try replace (j =? i) with false by lia;
      rewrite ?edge_irrefl, ?andb_false_r; cbn [andb orb negb]; try (destruct (Nat.eqb_spec y j) as [->|Yj]); try (destruct (Nat.eqb_spec x j) as [->|Xj]); rewrite ?Nat.eqb_refl; try replace (j =? i) with false by lia; rewrite ?edge_irrefl, ?andb_false_r, ?orb_false_r; cbn [andb orb negb]; try lia; try reflexivity;
      rewrite ?andb_false_r, ?orb_false_r; try reflexivity; try (apply edge_sym); try (replace (y =? i) with false by lia); try (replace (x =? i) with false by lia); cbn; try reflexivity; try (apply edge_sym). }
  destruct (edge g i j) eqn:Eij.
  - destruct (add_edge_spec g4 i j HG4) as (g5 & E5 & HG5 & N5 & T5 & R5); [assumption|lia|]. exists g5. split; [exact E5|]. split; [exact HG5|]. split; [congruence|]. split; [congruence|].
    intros x y. rewrite R5, R. destruct (same_pair x y i j) eqn:Es; [|reflexivity]. cbn [orb]. symmetry. rewrite (tau_pair g i j x y) by assumption. exact Eij.
  - exists g4. split; [reflexivity|]. split; [exact HG4|]. split; [congruence|]. split; [congruence|]. intros x y. rewrite R. destruct (same_pair x y i j) eqn:Es; [|reflexivity].
    symmetry. rewrite (tau_pair g i j x y) by assumption. exact Eij.
Qed.
Lemma swap_bad g i j : (i <? j) && (j <? g_n g) = false -> g_swap g i j = None.
Proof. intros H. unfold g_swap. now rewrite H. Qed.
