(** [subdivided_graph_from]. *)
From Coq Require Import List Arith ZArith NArith Bool Lia ZifyBool ZifyNat ZifyN String Permutation.
From Verif Require Import UtilModel PidModel PermModel PermSpec MatModel MatProofs SnfModel SnfProofs2 GraphModel GraphSpec GraphProofs LabGraphModel LabGraphSpec LabGraphProofs SubdivSpec.
Import ListNotations.
Open Scope nat_scope.

Lemma foldM_flat_map {A B S} (f : S -> A -> option S) (h : B -> list A) l s : foldM f (flat_map h l) s = foldM (fun s x => foldM f (h x) s) l s.
Proof. revert s. induction l as [|x l IH]; intros s; cbn [flat_map foldM]; [reflexivity|]. rewrite foldM_app. destruct (foldM f (h x) s); cbn [obind]; [apply IH|reflexivity]. Qed.
Lemma foldM_ext {A S} (f g : S -> A -> option S) l s : (forall s x, In x l -> f s x = g s x) -> foldM f l s = foldM g l s.
Proof. revert s. induction l as [|x l IH]; intros s H; cbn [foldM]; [reflexivity|]. rewrite H by now left. destruct (g s x); cbn [obind]; [|reflexivity]. apply IH. intros; apply H; now right. Qed.
Lemma foldM_map {A B S} (f : S -> B -> option S) (h : A -> B) l s : foldM f (map h l) s = foldM (fun s x => f s (h x)) l s.
Proof. revert s. induction l as [|x l IH]; intros s; cbn [map foldM]; [reflexivity|]. destruct (f s (h x)); cbn [obind]; [apply IH|reflexivity]. Qed.

(** ** The invariant: the graph shows exactly the recorded label pairs *)
Record shows (N : nat) (g : rawg) (L : list svertex) (A : list (svertex * svertex)) : Prop := {
  sh_GI : GI g; sh_n : g_n g = N; sh_t : g_tree g = false; sh_nd : NoDup L; sh_le : List.length L <= N;
  sh_in : forall u v, In (u, v) A -> In u L /\ In v L;
  sh_edge : forall x y, edge g x y = true <-> exists u v, nth_error L x = Some u /\ nth_error L y = Some v /\ (In (u, v) A \/ In (v, u) A) }.

Lemma nth_error_inj {A} (L : list A) x y u : NoDup L -> nth_error L x = Some u -> nth_error L y = Some u -> x = y.
Proof. intros H E1 E2. apply (proj1 (NoDup_nth_error L) H); [apply nth_error_Some; congruence|congruence]. Qed.
Lemma shows_push N g L A w : shows N g L A -> ~ In w L -> List.length L < N -> shows N g (L ++ [w]) A.
Proof.
  intros S Hw HL. destruct S as [S1 S2 S3 S4 S5 S6 S7]. constructor; try assumption.
  - rewrite <- (rev_involutive (L ++ [w])). apply NoDup_rev. rewrite rev_app_distr. cbn [rev app]. constructor; [now rewrite <- in_rev|now apply NoDup_rev].
  - rewrite app_length. cbn [List.length]. lia.
  - intros u v H. rewrite !in_app_iff. apply S6 in H. tauto.
  - intros x y. rewrite S7. split; intros (u & v & E1 & E2 & H); exists u, v.
    + rewrite !nth_error_app1 by (apply nth_error_Some; congruence). auto.
    + assert (K : In u L /\ In v L) by (destruct H as [H|H]; apply S6 in H; tauto). destruct K as [K1 K2].
      assert (B : forall z c, In c L -> nth_error (L ++ [w]) z = Some c -> nth_error L z = Some c).
      { intros z c Hc E. destruct (Nat.lt_ge_cases z (List.length L)) as [Q|Q]; [now rewrite nth_error_app1 in E|]. rewrite nth_error_app2 in E by exact Q. destruct (z - List.length L) as [|[|q]]; cbn in E; try discriminate E. injection E as <-. contradiction. }
      auto.
Qed.
Lemma shows_edge N g L A a b u v : shows N g L A -> nth_error L a = Some u -> nth_error L b = Some v -> a < b ->
  exists g', add_edge g a b = Some g' /\ shows N g' L (A ++ [(u, v)]).
Proof.
  intros S Ea Eb Hab. destruct S as [S1 S2 S3 S4 S5 S6 S7]. assert (Hb : b < List.length L) by (apply nth_error_Some; congruence).
  destruct (add_edge_spec g a b S1 Hab ltac:(lia)) as (g' & E & H1 & H2 & H3 & H4). exists g'. split; [exact E|]. constructor; try assumption; try congruence.
  - intros p q H. apply in_app_iff in H. destruct H as [H|[[= <- <-]|[]]]; [now apply S6|]. split; eapply nth_error_In; eassumption.
  - intros x y. rewrite H4, orb_true_iff, S7. unfold same_pair. split.
    + intros [H|(p & q & E1 & E2 & H)].
      * assert ((x = a /\ y = b) \/ (x = b /\ y = a)) as [[-> ->]|[-> ->]] by lia; [exists u, v|exists v, u]; repeat split; auto; [left|right]; apply in_app_iff; right; now left.
      * exists p, q. repeat split; auto. destruct H; [left|right]; apply in_app_iff; now left.
    + intros (p & q & E1 & E2 & H). assert (K : (In (p, q) A \/ In (q, p) A) \/ ((p = u /\ q = v) \/ (p = v /\ q = u))).
      { destruct H as [H|H]; apply in_app_iff in H; destruct H as [H|[H|[]]]; [auto| |auto|]; injection H as <- <-; auto. }
      destruct K as [K|K]; [right; now exists p, q|left]. destruct K as [[-> ->]|[-> ->]].
      * rewrite (nth_error_inj L x a u), (nth_error_inj L y b v) by assumption. rewrite !Nat.eqb_refl. reflexivity.
      * rewrite (nth_error_inj L x b v), (nth_error_inj L y a u) by assumption. rewrite !Nat.eqb_refl. apply orb_true_r.
Qed.

(** ** One chain *)
Definition chain_vertices (s t : string) (k den mid : nat) : list svertex := map (fun l => Redundant s t k l den) (seq 1 mid).
Definition chain_edges (s t : string) (k den mid : nat) : list (svertex * svertex) :=
  (Essential s, Redundant s t k 1 den) :: map (fun l => (Redundant s t k l den, Redundant s t k (S l) den)) (seq 1 (mid - 1)) ++ [(Essential t, Redundant s t k mid den)].
Lemma rng_seq a b : rng a b = seq a (b - a).
Proof. reflexivity. Qed.
Lemma push_vertex_spec N g L A s t k den from l u : shows N g L A -> nth_error L from = Some u -> ~ In (Redundant s t k l den) L -> List.length L < N ->
  exists g', push_vertex s t k den (g, L) from l = Some (g', L ++ [Redundant s t k l den]) /\ shows N g' (L ++ [Redundant s t k l den]) (A ++ [(u, Redundant s t k l den)]).
Proof.
  intros S E Hn HL. assert (Hf : from < List.length L) by (apply nth_error_Some; congruence).
  destruct (shows_edge N g (L ++ [Redundant s t k l den]) A from (List.length L) u (Redundant s t k l den) (shows_push _ _ _ _ _ S Hn HL)) as (g' & E' & S').
  - now rewrite nth_error_app1.
  - rewrite nth_error_app2, Nat.sub_diag by lia. reflexivity.
  - exact Hf.
  - exists g'. split; [|exact S']. unfold push_vertex. cbn [fst snd]. rewrite E'. reflexivity.
Qed.
Lemma push_middle N s t k den : forall n l0 g L A, 1 <= l0 -> shows N g L A -> L <> [] -> nth_error L (List.length L - 1) = Some (Redundant s t k l0 den) ->
  (forall l, l0 < l -> ~ In (Redundant s t k l den) L) -> List.length L + n <= N ->
  exists g', foldM (fun st l => push_vertex s t k den st (List.length (snd st) - 1) l) (seq (S l0) n) (g, L) = Some (g', L ++ map (fun l => Redundant s t k l den) (seq (S l0) n)) /\
    shows N g' (L ++ map (fun l => Redundant s t k l den) (seq (S l0) n)) (A ++ map (fun l => (Redundant s t k l den, Redundant s t k (S l) den)) (seq l0 n)).
Proof.
  induction n as [|n IH]; intros l0 g L A H1 W HL0 E Hn HN; [exists g; cbn [seq map foldM]; rewrite !app_nil_r; auto|]. cbn [seq map foldM]. cbn [snd].
  destruct (push_vertex_spec N g L A s t k den (List.length L - 1) (S l0) _ W E (Hn (S l0) ltac:(lia)) ltac:(lia)) as (g1 & -> & S1). cbn [obind].
  destruct (IH (S l0) g1 _ _ ltac:(lia) S1) as (g2 & E2 & S2).
  - now destruct L.
  - rewrite app_length. cbn [List.length]. rewrite nth_error_app2 by lia. replace (_ - _) with 0 by lia. reflexivity.
  - intros l Hl K. apply in_app_iff in K. destruct K as [K|[[= K]|[]]]; [exact (Hn l ltac:(lia) K)|lia].
  - rewrite app_length. cbn [List.length]. lia.
  - exists g2. rewrite <- !app_assoc in *. cbn [app] in *. auto.
Qed.
Lemma push_chain_spec N g L A s t i j k mid den : shows N g L A -> nth_error L i = Some (Essential s) -> nth_error L j = Some (Essential t) -> 1 <= mid ->
  (forall l, ~ In (Redundant s t k l den) L) -> List.length L + mid <= N ->
  exists g', push_chain s t i j k mid den (g, L) = Some (g', L ++ chain_vertices s t k den mid) /\ shows N g' (L ++ chain_vertices s t k den mid) (A ++ chain_edges s t k den mid).
Proof.
  intros S Ei Ej Hm Hn HN. unfold push_chain. destruct (push_vertex_spec N g L A s t k den i 1 _ S Ei (Hn 1) ltac:(lia)) as (g1 & -> & S1). cbn [obind]. rewrite rng_seq. replace (mid + 1 - 2) with (mid - 1) by lia.
  destruct (push_middle N s t k den (mid - 1) 1 g1 _ _ ltac:(lia) S1) as (g2 & -> & S2).
  - now destruct L.
  - rewrite app_length. cbn [List.length]. rewrite nth_error_app2 by lia. replace (_ - _) with 0 by lia. reflexivity.
  - intros l Hl K. apply in_app_iff in K. destruct K as [K|[[= K]|[]]]; [exact (Hn l K)|lia].
  - rewrite app_length. cbn [List.length]. lia.
  - cbn [obind fst snd]. assert (EV : (L ++ [Redundant s t k 1 den]) ++ map (fun l => Redundant s t k l den) (seq 2 (mid - 1)) = L ++ chain_vertices s t k den mid).
    { unfold chain_vertices. rewrite <- app_assoc. f_equal. replace mid with (1 + (mid - 1)) at 2 by lia. reflexivity. }
    rewrite EV in *. set (L' := L ++ chain_vertices s t k den mid) in *. assert (HL' : List.length L' = List.length L + mid) by (unfold L', chain_vertices; now rewrite app_length, map_length, seq_length).
    destruct (shows_edge N g2 L' _ j (List.length L' - 1) (Essential t) (Redundant s t k mid den) S2) as (g3 & -> & S3).
    + unfold L'. rewrite nth_error_app1; [exact Ej|]. apply nth_error_Some. congruence.
    + unfold L', chain_vertices. rewrite nth_error_app2 by (rewrite app_length, map_length, seq_length; lia). rewrite app_length, map_length, seq_length. replace (_ - 1 - _) with (mid - 1) by lia.
      rewrite (map_nth_error _ _ _ (d := mid)); [reflexivity|]. rewrite (nth_error_nth' _ 0) by (rewrite seq_length; lia). rewrite seq_nth by lia. f_equal. lia.
    + assert (j < List.length L) by (apply nth_error_Some; congruence). lia.
    + cbn [obind]. exists g3. split; [reflexivity|]. unfold chain_edges. rewrite <- !app_assoc in S3. exact S3.
Qed.

(** ** All chains *)
Section All.
  Variables (labels : list string) (m : nat).
  Hypothesis ND : NoDup labels.
  Hypothesis Hm : 2 <= m.
  Let lab i := nth i labels EmptyString.
  Definition key_vertices (q : nat * nat * nat) : list svertex :=
    let '(i, j, k) := q in chain_vertices (nth i labels EmptyString) (nth j labels EmptyString) k (if i =? j then m + 1 else m - 1) (if i =? j then m else Nat.max (m - 2) 1).
  Definition key_edges (q : nat * nat * nat) : list (svertex * svertex) :=
    let '(i, j, k) := q in chain_edges (nth i labels EmptyString) (nth j labels EmptyString) k (if i =? j then m + 1 else m - 1) (if i =? j then m else Nat.max (m - 2) 1).
  Definition push_key (st : rawg * list svertex) (q : nat * nat * nat) : option (rawg * list svertex) :=
    let '(i, j, k) := q in push_chain (nth i labels EmptyString) (nth j labels EmptyString) i j k (if i =? j then m else Nat.max (m - 2) 1) (if i =? j then m + 1 else m - 1) st.
  Lemma key_vertex_in q v : In v (key_vertices q) -> let '(i, j, k) := q in exists l, 1 <= l <= (if i =? j then m else Nat.max (m - 2) 1) /\ v = Redundant (lab i) (lab j) k l (if i =? j then m + 1 else m - 1).
  Proof. destruct q as [[i j] k]. unfold key_vertices, chain_vertices. intros H. apply in_map_iff in H. destruct H as (l & <- & Hl). apply in_seq in Hl. exists l. split; [lia|reflexivity]. Qed.
  Lemma push_keys N : forall ks done g, NoDup (done ++ ks) -> (forall q, In q (done ++ ks) -> fst (fst q) < List.length labels /\ snd (fst q) < List.length labels) ->
    shows N g (map Essential labels ++ flat_map key_vertices done) (flat_map key_edges done) ->
    List.length labels + List.length (flat_map key_vertices (done ++ ks)) <= N ->
    exists g', foldM push_key ks (g, map Essential labels ++ flat_map key_vertices done) = Some (g', map Essential labels ++ flat_map key_vertices (done ++ ks)) /\
      shows N g' (map Essential labels ++ flat_map key_vertices (done ++ ks)) (flat_map key_edges (done ++ ks)).
  Proof.
    induction ks as [|q ks IH]; intros done g NK HB S HN; [exists g; rewrite app_nil_r in *; auto|]. cbn [foldM]. destruct q as [[i j] k]. unfold push_key at 1. destruct (HB (i, j, k)) as [Hi Hj]; [apply in_app_iff; right; now left|]. cbn [fst snd] in Hi, Hj.
    assert (EL : forall x, x < List.length labels -> nth_error (map Essential labels ++ flat_map key_vertices done) x = Some (Essential (lab x))).
    { intros x Hx. rewrite nth_error_app1 by now rewrite map_length. apply map_nth_error. now apply nth_error_nth'. }
    destruct (push_chain_spec N g _ _ (lab i) (lab j) i j k (if i =? j then m else Nat.max (m - 2) 1) (if i =? j then m + 1 else m - 1) S (EL i Hi) (EL j Hj)) as (g1 & E1 & S1).
    - destruct (i =? j); lia.
    - intros l K. apply in_app_iff in K. destruct K as [K|K]; [apply in_map_iff in K; destruct K as (x & K & _); discriminate K|]. apply in_flat_map in K. destruct K as ([[i' j'] k'] & K1 & K2). apply key_vertex_in in K2. destruct K2 as (l' & _ & K2).
      injection K2 as E1 E2 E3 _ _. assert (Q : i' < List.length labels /\ j' < List.length labels) by (apply (HB (i', j', k')); apply in_app_iff; now left). destruct Q as [Q1 Q2]. apply (label_inj labels) in E1; try assumption. apply (label_inj labels) in E2; try assumption. subst i' j' k'.
      apply NoDup_remove_2 in NK. apply NK. apply in_app_iff. now left.
    - rewrite app_length, map_length. rewrite flat_map_app, app_length in HN. cbn [flat_map] in HN. rewrite app_length in HN. unfold key_vertices at 2, chain_vertices in HN. rewrite map_length, seq_length in HN. lia.
    - unfold lab in E1. rewrite E1. cbn [obind]. change (done ++ (i, j, k) :: ks) with (done ++ [(i, j, k)] ++ ks) in *. rewrite app_assoc in *.
      assert (EV : (map Essential labels ++ flat_map key_vertices done) ++ chain_vertices (lab i) (lab j) k (if i =? j then m + 1 else m - 1) (if i =? j then m else Nat.max (m - 2) 1) = map Essential labels ++ flat_map key_vertices (done ++ [(i, j, k)])).
      { rewrite flat_map_app. cbn [flat_map]. rewrite app_nil_r. now rewrite <- app_assoc. }
      assert (EE : flat_map key_edges done ++ chain_edges (lab i) (lab j) k (if i =? j then m + 1 else m - 1) (if i =? j then m else Nat.max (m - 2) 1) = flat_map key_edges (done ++ [(i, j, k)])).
      { rewrite flat_map_app. cbn [flat_map]. now rewrite app_nil_r. }
      rewrite EV, EE in S1. unfold lab in EV. rewrite EV. now apply IH.
  Qed.
End All.
