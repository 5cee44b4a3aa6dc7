(** Edge paths of one-dimensional configurations. *)
From Coq Require Import List Arith ZArith Bool Lia Sorted Permutation.
From Verif Require Import PidModel SnfModel MatModel LinModel GraphModel GraphSpec GraphProofs GraphProofs7
  EdgePathModel EdgePathSpec EdgePathProofs EdgePathProofs2 EdgePathProofs3 EdgePathProofs4 EdgePathProofs5 EdgePathProps
  CubeModel CubeSpec CubeProofs MorseModel MorseSpec MorseProofs MorseProofs2 MorseProofs3.
Import ListNotations.
Open Scope nat_scope.

Lemma list_sum_bound m l : (forall v, In v l -> v < m) -> list_sum l <= length l * m.
Proof. induction l as [|x t IH]; intros H; cbn; [lia|]. pose proof (H x (or_introl eq_refl)). specialize (IH (fun v K => H v (or_intror K))). unfold list_sum in *. lia. Qed.
(** A one-dimensional configuration is a row of points with one edge. *)
Lemma one_edge c : dimension c = 1 -> exists l r a b, c = V l ++ FEdge a b :: V r.
Proof.
  unfold dimension. induction c as [|f t IH]; intros H; [discriminate H|]. destruct f as [a b|v]; cbn in H.
  - injection H as H. assert (exists r, t = V r) as (r & ->).
    { clear IH. induction t as [|f t IH]; [exists []; reflexivity|]. destruct f as [x y|v]; cbn in H; [discriminate H|]. destruct (IH H) as (r & ->). now exists (v :: r). }
    exists [], r, a, b. reflexivity.
  - destruct (IH H) as (l & r & a & b & ->). exists (v :: l), r, a, b. reflexivity.
Qed.
Lemma find_V_edge l r a b : find is_edge (V l ++ FEdge a b :: V r) = Some (FEdge a b).
Proof. induction l as [|x t IH]; [reflexivity|exact IH]. Qed.
Lemma map_V (h : factor -> factor) l : (forall v, h (FVertex v) = FVertex v) -> map h (V l) = V l.
Proof. intros H. unfold V. rewrite map_map. apply map_ext. auto. Qed.
Lemma NoDup_insert (l r : list nat) x : NoDup (l ++ r) -> ~ In x (l ++ r) -> NoDup (l ++ x :: r).
Proof. intros H N. apply (Permutation_NoDup (Permutation_middle l r x)). now constructor. Qed.
Lemma in_V f l : In f (V l) -> exists v, f = FVertex v /\ In v l.
Proof. intros H. apply in_map_iff in H as (v & <- & H). eauto. Qed.
Lemma fop_app {A} (R : A -> A -> Prop) l r : ForallOrdPairs R (l ++ r) -> ForallOrdPairs R l /\ ForallOrdPairs R r /\ forall x y, In x l -> In y r -> R x y.
Proof.
  induction l as [|z t IH]; cbn; intros H; [split; [constructor|split; [exact H|intros x y []]]|]. inversion H as [|? ? H1 H2]; subst. rewrite Forall_forall in H1. destruct (IH H2) as (A1 & A2 & A3). split; [|split; [exact A2|]].
  - constructor; [|exact A1]. apply Forall_forall. intros x Hx. apply H1, in_app_iff. now left.
  - intros x y [<-|Hx] Hy; [apply H1, in_app_iff; now right|now apply A3].
Qed.
Lemma pd_V_NoDup l : ForallOrdPairs CubeSpec.disjoint (V l) -> NoDup l.
Proof.
  induction l as [|x t IH]; intros H; constructor; inversion H as [|? ? H1 H2]; subst; [|now apply IH]. intros K. rewrite Forall_forall in H1. apply (H1 (FVertex x) (in_map FVertex _ _ K) x); now left.
Qed.

Section G.
Variable g : rawg.
Hypothesis HA : AR g.

Lemma cut_ok l r a b n : configuration g n (V l ++ FEdge a b :: V r) -> ok g (l ++ a :: r) /\ ok g (l ++ b :: r) /\ a < b /\ edge g a b = true /\ ~ In a (l ++ b :: r).
Proof.
  intros (Len & HF & HD). apply Forall_app in HF as (F1 & F2). inversion F2 as [|? ? HabE F3]; subst. destruct HabE as [Hab E]. pose proof (edge_lt g a b (AR_GI g HA) E) as (La & Lb & _).
  apply fop_app in HD as (D1 & D2 & D3). inversion D2 as [|? ? D4 D5]; subst. apply pd_V_NoDup in D1, D5.
  assert (ND : NoDup (l ++ r)).
  { clear - D1 D5 D3. induction l as [|x t IH]; [exact D5|]. inversion D1; subst. cbn. constructor.
    - intros K. apply in_app_iff in K as [K|K]; [contradiction|]. apply (D3 (FVertex x) (FVertex x) (or_introl eq_refl)) with (v := x); [right; now apply in_map|now left|now left].
    - apply IH; [assumption|]. intros f f' Hf Hf'. apply D3; [now right|exact Hf']. }
  rewrite Forall_forall in F1, F3, D4.
  assert (N : forall x, x = a \/ x = b -> ~ In x (l ++ r)).
  { intros x Hx K. apply in_app_iff in K as [K|K].
    - apply (D3 (FVertex x) (FEdge a b) (in_map FVertex _ _ K) (or_introl eq_refl) x); [now left|]. destruct Hx as [->| ->]; cbn; auto.
    - apply (D4 (FVertex x) (in_map FVertex _ _ K) x); [destruct Hx as [->| ->]; cbn; auto|now left]. }
  assert (LT : forall x v, x < g_n g -> In v (l ++ x :: r) -> v < g_n g).
  { intros x v Hx K. apply in_app_iff in K as [K|[<-|K]]; [exact (F1 _ (in_map FVertex _ _ K))|exact Hx|exact (F3 _ (in_map FVertex _ _ K))]. }
  split; [split; [apply NoDup_insert; [exact ND|apply N; now left]|intros v; now apply LT]|]. split; [split; [apply NoDup_insert; [exact ND|apply N; now right]|intros v; now apply LT]|].
  split; [exact Hab|]. split; [exact E|]. intros K. apply in_app_iff in K as [K|[K|K]]; [|lia|]; apply (N a (or_introl eq_refl)), in_app_iff; auto.
Qed.

Lemma edge_path_spec n c : configuration g n c -> dimension c = 1 -> exists r f1 f2 a b w1 w2,
  (forall fuel, n * g_n g < fuel -> get_edge_path fuel g c = Some r) /\ In (FEdge a b) c /\ inwards g w1 /\ inwards g w2 /\ homotopic (concat r) (backwards w1 ++ (b, a) :: w2) /\
  (forall w, homotopic (concat r) w -> length (concat r) <= length w) /\ Forall parallel r /\ ok g f1 /\ ok g f2 /\ length f1 = n /\ length f2 = n /\
  (forall v, In v f1 -> blocked g (V f1) v) /\ (forall v, In v f2 -> blocked g (V f2) v) /\ moves f1 (concat r) f2.
Proof.
  intros HC H1. destruct (one_edge c H1) as (l & r0 & a & b & ->). destruct (cut_ok l r0 a b n HC) as (Oa & Ob & Hab & E & Na).
  assert (Len : forall x : nat, length (l ++ x :: r0) = n). { intros x. destruct HC as (K & _). rewrite app_length in *. cbn [length] in *. unfold V in K. rewrite !map_length in K. exact K. }
  destruct (edge_path_rec_spec g HA _ (l ++ b :: r0) eq_refl Ob) as (w1 & f1 & M1 & I1 & O1 & B1 & R1).
  destruct (edge_path_rec_spec g HA _ (l ++ a :: r0) eq_refl Oa) as (w2 & f2 & M2 & I2 & O2 & B2 & R2).
  assert (Me : moves1 (l ++ b :: r0) (b, a) (l ++ a :: r0)) by (constructor; exact Na).
  pose proof (settle_no_prefix g HA w1 f1 _ _ _ w2 f2 Ob I1 M1 B1 Me I2 M2) as NP.
  destruct (reduce (map (fun e => [e]) (backwards w1 ++ (b, a) :: w2))) as [r|] eqn:Er.
  2:{ exfalso. apply NP. apply C57_reduce_panics in Er. now rewrite concat_singles in Er. }
  pose proof (C57_reduce_geodesic _ _ Er) as (G1 & G2 & _ & _ & G3 & _). rewrite concat_singles in G1, G3.
  assert (MW : moves f1 (backwards w1 ++ (b, a) :: w2) f2). { apply moves_app. exists (l ++ b :: r0). split; [apply moves_backwards; [exact M1|apply Ob]|]. econstructor; eassumption. }
  exists r, f1, f2, a, b, w1, w2. split.
  - intros fuel Hf. unfold get_edge_path. rewrite !map_app. cbn [map]. rewrite !map_V by reflexivity.
    change (V l ++ FVertex b :: V r0) with (V l ++ V (b :: r0)). change (V l ++ FVertex a :: V r0) with (V l ++ V (a :: r0)). unfold V at 2 3 4 5. rewrite <- !map_app. fold (V (l ++ b :: r0)) (V (l ++ a :: r0)).
    replace (find is_edge (V l ++ FEdge a b :: map FVertex r0)) with (Some (FEdge a b)) by (symmetry; apply find_V_edge). cbn [obind f_edge fst snd].
    pose proof (list_sum_bound (g_n g) _ (proj2 Oa)) as Sa. pose proof (list_sum_bound (g_n g) _ (proj2 Ob)) as Sb. rewrite Len in Sa, Sb.
    rewrite (R1 fuel false) by lia. cbn [obind snd]. rewrite (R2 fuel true) by lia. cbn [obind snd]. rewrite <- app_assoc. exact Er.
  - split; [apply in_app_iff; right; now left|]. split; [exact I1|]. split; [exact I2|]. split; [now apply h_sym|]. split; [intros w Hw; apply G3; eapply h_trans; eassumption|]. split; [exact G2|]. split; [exact O1|]. split; [exact O2|].
    split; [rewrite (moves_length _ _ _ M1); apply Len|]. split; [rewrite (moves_length _ _ _ M2); apply Len|]. split; [exact B1|]. split; [exact B2|].
    eapply moves_reduce; [apply O1|exact Er|]. now rewrite concat_singles.
Qed.
Lemma base_path_spec l : ok g l -> exists r q f w,
  (forall fuel, length l * g_n g < fuel -> get_edge_path_to_from_base_pt fuel g (V l) true = Some r /\ get_edge_path_to_from_base_pt fuel g (V l) false = Some q) /\
  inwards g w /\ homotopic (concat r) w /\ (forall w', homotopic (concat r) w' -> length (concat r) <= length w') /\ Forall parallel r /\ ok g f /\ length f = length l /\ (forall v, In v f -> blocked g (V f) v) /\
  moves l (concat r) f /\ moves f (concat q) l /\ reduce (composed_with r q) = Some [[]].
Proof.
  intros O. destruct (edge_path_rec_spec g HA _ l eq_refl O) as (w & f & M & I & Of & B & R). pose proof (inwards_no_prefix g HA w l f O I M) as NP.
  destruct (reduce (map (fun e => [e]) w)) as [r|] eqn:Er.
  2:{ exfalso. apply NP. apply C57_reduce_panics in Er. now rewrite concat_singles in Er. }
  pose proof (C57_reduce_geodesic _ _ Er) as (G1 & G2 & _ & _ & G3 & _). rewrite concat_singles in G1, G3. destruct (proj2 (C57_inverse_partial _ _ Er)) as (q & Eq & Ec).
  assert (Mr : moves l (concat r) f) by (eapply moves_reduce; [apply O|exact Er|now rewrite concat_singles]).
  exists r, q, f, w. split; [|split; [exact I|split; [now apply h_sym|split; [intros w' Hw; apply G3; eapply h_trans; eassumption|split; [exact G2|split; [exact Of|split; [apply (moves_length _ _ _ M)|split; [exact B|split; [exact Mr|split; [|exact Ec]]]]]]]]]].
  - intros fuel Hf. unfold get_edge_path_to_from_base_pt. assert (forallb is_vertex (V l) = true) as -> by (apply forallb_forall; intros x Hx; apply in_V in Hx as (v & -> & _); reflexivity).
    pose proof (list_sum_bound (g_n g) l (proj2 O)) as Sl. rewrite (R fuel true []) by lia. cbn [obind snd app]. rewrite Er. cbn [obind]. split; [reflexivity|exact Eq].
  - (* backwards *)
    unfold inverse in Eq. cbv zeta in Eq. eapply moves_reduce; [apply Of|exact Eq|]. rewrite inverse_word. apply moves_backwards; [exact Mr|apply O].
Qed.
End G.
