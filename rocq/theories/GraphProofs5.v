(** Relabelling and the choice of the base point. *)
From Coq Require Import List Arith NArith Bool Lia ZifyBool ZifyNat ZifyN Permutation.
From Verif Require Import UtilModel UtilSpec UtilProofs PidModel PermModel PermSpec PermProofs PermProofs2 PermProofs3 PermProofs4 PermProps MatModel SnfModel SnfProofs2 GraphModel GraphSpec GraphProofs GraphProofs2 GraphProofs3.
Import ListNotations.
Open Scope nat_scope.

(** [h] is [g] with vertex x renamed p x. *)
Record relab (g : rawg) (p : perm) (h : rawg) : Prop := {
  L_GI : GI h; L_n : g_n h = g_n g; L_nf : normal p; L_supp : forall x, pmap p x <> x -> x < g_n g;
  L_edge : forall x y, edge h (pmap p x) (pmap p y) = edge g x y }.
Lemma relab_id g : GI g -> relab g identity g.
Proof. intros H. constructor; auto; [apply normal_identity| |]; intros x; intros; rewrite ?pmap_identity in *; congruence. Qed.
Lemma relab_comp g p h q k : relab g p h -> relab h q k -> exists r, pmul q p = Some r /\ relab g r k /\ forall x, pmap r x = pmap q (pmap p x).
Proof.
  intros [A1 A2 A3 A4 A5] [B1 B2 B3 B4 B5]. destruct (pmul_spec q p B3 A3) as (r & Er & Hr & Mr). exists r. split; [exact Er|]. split; [|exact Mr].
  constructor; [exact B1|congruence|exact Hr| |intros x y; now rewrite !Mr, B5].
  intros x Hx. rewrite Mr in Hx. destruct (Nat.eq_dec (pmap p x) x) as [E|E]; [|now apply A4]. rewrite E in Hx. rewrite <- A2. now apply B4.
Qed.
Lemma supp_lt p n : normal p -> (forall x, pmap p x <> x -> x < n) -> forall x, x < n <-> pmap p x < n.
Proof.
  intros Hp Hs x. destruct (pmap_bijective p (normal_disj p Hp)) as [Hi _]. split; intros H.
  - destruct (Nat.lt_ge_cases (pmap p x) n) as [|K]; [assumption|]. destruct (Nat.eq_dec (pmap p (pmap p x)) (pmap p x)) as [E|E].
    + apply Hi in E. lia.
    + apply Hs in E. lia.
  - destruct (Nat.eq_dec (pmap p x) x) as [E|E]; [lia|now apply Hs].
Qed.
Lemma relab_onto g p h y : relab g p h -> exists x, pmap p x = y /\ (x < g_n g <-> y < g_n g).
Proof.
  intros H. destruct (pmap_bijective p (normal_disj p (L_nf _ _ _ H))) as [_ Hs]. destruct (Hs y) as [x <-]. exists x. split; [reflexivity|]. apply supp_lt; apply H.
Qed.
Lemma path_map r s (f : nat -> nat) x y : (forall a b, r a b = true -> path s (f a) (f b)) -> path r x y -> path s (f x) (f y).
Proof. intros H P. induction P as [x|x y z P IH E]; [constructor|]. apply (path_trans s _ (f y)); auto. Qed.
Lemma relab_connected g p h : relab g p h -> connected (g_n g) (edge g) -> connected (g_n h) (edge h).
Proof.
  intros H HC x y Hx Hy. rewrite (L_n _ _ _ H) in Hx, Hy. destruct (relab_onto g p h x H) as (a & <- & Ha). destruct (relab_onto g p h y H) as (b & <- & Hb).
  apply (path_map (edge g)); [|apply HC; tauto]. intros u w E. apply (p_step _ _ (pmap p u)); [constructor|]. now rewrite (L_edge _ _ _ H).
Qed.
Lemma action_relab g p : GI g -> normal p -> (forall x, pmap p x <> x -> x < g_n g) -> exists h, g_action g p = Some h /\ relab g p h /\ g_tree h = g_tree g.
Proof.
  intros HG Hp Hs. destruct (g_action_spec g p HG Hp Hs) as (h & E & (A & B & C) & D). exists h. split; [exact E|]. split; [now constructor|exact C].
Qed.

(** ** The base point *)
Lemma swap_relab g i : GI g -> 0 < i -> i < g_n g -> exists g' p, g_swap g 0 i = Some g' /\ transposition 0 i = Some p /\ relab g p g' /\ g_tree g' = g_tree g.
Proof.
  intros HG H0 Hi. destruct (swap_spec g 0 i HG H0 Hi) as (g' & E & HG' & N & T & R). destruct (transposition_spec 0 i ltac:(lia)) as (t & Et & Ht & M & _).
  exists g', t. split; [exact E|]. split; [exact Et|]. split; [|exact T]. constructor; auto.
  - intros x Hx. rewrite M in Hx. unfold trans_map in Hx. destruct (Nat.eqb_spec x 0) as [E1|]; [lia|]. destruct (Nat.eqb_spec x i) as [E1|]; [lia|]. congruence.
  - intros x y. rewrite R, !M. assert (K : forall z, tau 0 i (trans_map 0 i z) = z); [|now rewrite !K]. intros z. unfold tau, trans_map.
    destruct (Nat.eqb_spec z 0) as [E1|E1]; [destruct (Nat.eqb_spec i 0); [lia|]; rewrite Nat.eqb_refl; lia|]. destruct (Nat.eqb_spec z i) as [E2|E2]; [rewrite Nat.eqb_refl; lia|].
    destruct (Nat.eqb_spec z 0); [lia|]. destruct (Nat.eqb_spec z i); lia.
Qed.

(** The connectivity test of one candidate. *)
Lemma cut_test g v a rest g2 : GI g -> v < g_n g -> GI g2 -> g_n g2 = g_n g -> filter (edge g v) (seq 0 (g_n g)) = a :: rest -> 2 <= g_n g ->
  (forall x y, edge g2 x y = same_pair x y v a || avoiding v (edge g) x y) ->
  (connected (g_n g2) (edge g2) <-> forall x y, x < g_n g -> y < g_n g -> x <> v -> y <> v -> path (avoiding v (edge g)) x y).
Proof.
  intros HG Hv HG2 Hn Ha H2 HE. assert (Hva : edge g v a = true) by (assert (K : In a (filter (edge g v) (seq 0 (g_n g)))) by (rewrite Ha; now left); apply filter_In in K; apply K).
  pose proof (edge_lt g v a HG Hva) as (_ & Han & Hne). rewrite Hn. split.
  - intros HC x y Hx Hy Hxv Hyv. pose (f z := if z =? v then a else z). assert (Fx : forall z, z <> v -> f z = z) by (intros z Hz; unfold f; now destruct (Nat.eqb_spec z v)).
    rewrite <- (Fx x Hxv), <- (Fx y Hyv). apply (path_map (edge g2)); [|now apply HC]. intros u w E. rewrite HE in E. unfold f. apply orb_prop in E. destruct E as [E|E].
    + unfold same_pair in E. assert (K : (u = v /\ w = a) \/ (u = a /\ w = v)) by lia. destruct K as [[-> ->]|[-> ->]]; rewrite Nat.eqb_refl; destruct (Nat.eqb_spec a v); try congruence; constructor.
    + pose proof E as E'. unfold avoiding in E'. destruct (Nat.eqb_spec u v); [discriminate E'|]. destruct (Nat.eqb_spec w v); [discriminate E'|]. apply (p_step _ _ u); [constructor|exact E].
  - intros HP. assert (K : forall x, x < g_n g -> path (edge g2) a x).
    { intros x Hx. destruct (Nat.eq_dec x v) as [->|Hxv].
      - apply (p_step _ _ a); [constructor|]. rewrite HE. unfold same_pair. rewrite !Nat.eqb_refl. cbn. now rewrite orb_true_r.
      - apply (path_ext (avoiding v (edge g))); [intros u w E; rewrite HE, E; apply orb_true_r|]. apply HP; auto. }
    intros x y Hx Hy. apply (path_trans _ x a y); [apply path_sym; [apply edge_sym|auto]|auto].
Qed.

Lemma base_loop_spec g : GI g -> (deg (g_n g) (edge g) 0 <> 1) -> forall l, (forall x, In x l -> x < g_n g) ->
  match base_loop g l with
  | Some (g', p) => exists v, In v l /\ good_base (g_n g) (edge g) v /\ relab g p g' /\ g_tree g' = g_tree g /\ pmap p v = 0
  | None => forall v, In v l -> ~ good_base (g_n g) (edge g) v
  end.
Proof.
  intros HG H0. induction l as [|i l IH]; intros Hl; cbn [base_loop]; [intros v []|]. specialize (IH ltac:(intros; apply Hl; now right)).
  pose proof (Hl i ltac:(now left)) as Hi. rewrite degree_spec by assumption. replace (i <? g_n g) with true by lia. cbn [obind]. fold (deg (g_n g) (edge g) i).
  destruct (Nat.eqb_spec (deg (g_n g) (edge g) i) 1) as [D1|D1].
  - assert (Hi0 : 0 < i) by (destruct i; [congruence|lia]). destruct (swap_relab g i HG Hi0 Hi) as (g' & p & E1 & E2 & R & T). rewrite E1, E2. cbn [obind].
    exists i. split; [now left|]. split; [split; [exact Hi|now left]|]. split; [exact R|]. split; [exact T|]. destruct (transposition_spec 0 i ltac:(lia)) as (t & Et & _ & M & _). assert (t = p) by congruence. subst t.
    rewrite M. unfold trans_map. destruct (Nat.eqb_spec i 0); [lia|]. now rewrite Nat.eqb_refl.
  - destruct (Nat.leb_spec 3 (deg (g_n g) (edge g) i)) as [D3|D3].
    + rewrite adj_spec by assumption. cbn [obind]. destruct (remove_adj_spec g i HG Hi) as (g1 & E1 & HG1 & N1 & T1 & R1). rewrite E1. cbn [obind].
      unfold deg in D3. destruct (filter (edge g i) (seq 0 (g_n g))) as [|a rest] eqn:Ea; [cbn in D3; lia|]. cbn [map].
      assert (Hia : edge g i a = true) by (assert (K : In a (filter (edge g i) (seq 0 (g_n g)))) by (rewrite Ea; now left); apply filter_In in K; apply K).
      pose proof (edge_lt g i a HG Hia) as (_ & Han & Hne). destruct (ordered_ok i a (g_n g1) ltac:(auto) ltac:(lia) ltac:(lia)) as [O1 O2].
      destruct (add_edge_spec g1 _ _ HG1 O1 O2) as (g2 & E2 & HG2 & N2 & T2 & R2). rewrite E2. cbn [obind].
      destruct (is_connected_spec g2 HG2) as (b & Eb & Hb). rewrite Eb. cbn [obind].
      assert (HE2 : forall x y, edge g2 x y = same_pair x y i a || avoiding i (edge g) x y) by (intros x y; rewrite R2, same_ordered by auto; now rewrite R1).
      assert (Hn2 : 2 <= g_n g) by (pose proof (filter_len_le (edge g i) (seq 0 (g_n g))) as K; rewrite Ea, seq_length in K; lia).
      pose proof (cut_test g i a rest g2 HG Hi HG2 ltac:(congruence) Ea Hn2 HE2) as HT.
      destruct (add_edges_spec (map (ordered i) (a :: rest)) g2 HG2) as (g3 & E3 & HG3 & N3 & T3 & R3).
      { rewrite N2, N1, <- Ea. now apply star_ok. }
      cbn [map] in E3. rewrite E3. cbn [obind].
      assert (E3g : g3 = g).
      { apply graph_ext; auto; [congruence|congruence|]. intros x y. rewrite R3, HE2. rewrite <- Ea. rewrite pair_in_star by apply adj_not_self. rewrite !existsb_adj by assumption.
        unfold avoiding, same_pair. rewrite (edge_sym g x y). destruct (Nat.eqb_spec x i) as [Ex|Ex], (Nat.eqb_spec y i) as [Ey|Ey]; try rewrite Ex; try rewrite Ey; cbn [andb orb negb].
        - rewrite edge_irrefl. destruct (Nat.eqb_spec i a); [congruence|]. reflexivity.
        - rewrite (edge_sym g y i). destruct (Nat.eqb_spec y a) as [K|K]; [rewrite K, Hia; reflexivity|]. rewrite !orb_false_r, ?andb_false_r, ?orb_false_r. reflexivity.
        - destruct (Nat.eqb_spec x a) as [K|K]; [rewrite K, Hia; reflexivity|]. cbn. rewrite !orb_false_r. reflexivity.
        - rewrite andb_false_r. reflexivity. }
      subst g3. destruct b.
      * assert (GB : good_base (g_n g) (edge g) i). { split; [exact Hi|]. right. split; [unfold deg; rewrite Ea; exact D3|]. apply HT. apply Hb. reflexivity. }
        destruct (Nat.eqb_spec i 0) as [Ei|Ei].
        -- exists i. split; [now left|]. split; [exact GB|]. split; [now apply relab_id|]. split; [reflexivity|]. now rewrite pmap_identity.
        -- destruct (swap_relab g i HG ltac:(lia) Hi) as (g' & p & F1 & F2 & R & T). rewrite F1, F2. cbn [obind]. exists i. split; [now left|]. split; [exact GB|]. split; [exact R|]. split; [exact T|].
           destruct (transposition_spec 0 i ltac:(lia)) as (t & Et & _ & M & _). assert (t = p) by congruence. subst t. rewrite M. unfold trans_map. destruct (Nat.eqb_spec i 0); [lia|]. now rewrite Nat.eqb_refl.
      * assert (NB : ~ good_base (g_n g) (edge g) i). { intros [_ [K|[_ K]]]; [congruence|]. apply HT in K. assert (false = true); [|discriminate]. apply Hb. split; [lia|exact K]. }
        destruct (base_loop g l) as [[g' p]|]; [destruct IH as (v & A & B); exists v; split; [now right|exact B]|]. intros v [<-|Hv]; auto.
    + assert (NB : ~ good_base (g_n g) (edge g) i) by (intros [_ [K|[K _]]]; lia).
      destruct (base_loop g l) as [[g' p]|]; [destruct IH as (v & A & B); exists v; split; [now right|exact B]|]. intros v [<-|Hv]; auto.
Qed.
Lemma base_spec g : GI g ->
  match choose_base_point g with
  | Some (g', p) => exists v, good_base (g_n g) (edge g) v /\ relab g p g' /\ g_tree g' = g_tree g /\ pmap p v = 0
  | None => forall v, ~ good_base (g_n g) (edge g) v
  end.
Proof.
  intros HG. pose proof (GI_pos _ HG) as Hp. unfold choose_base_point. rewrite degree_spec by assumption. replace (0 <? g_n g) with true by lia. cbn [obind]. fold (deg (g_n g) (edge g) 0).
  destruct (Nat.eqb_spec (deg (g_n g) (edge g) 0) 1) as [D|D].
  - exists 0. split; [split; [exact Hp|now left]|]. split; [now apply relab_id|]. split; [reflexivity|]. now rewrite pmap_identity.
  - pose proof (base_loop_spec g HG D (seq 0 (g_n g)) ltac:(intros x Hx; apply in_seq in Hx; lia)) as H. destruct (base_loop g (seq 0 (g_n g))) as [[g' p]|].
    + destruct H as (v & _ & H). exists v. exact H.
    + intros v Hv. apply (H v); [|exact Hv]. apply in_seq. destruct Hv. lia.
Qed.
