(** [UdnMorseCplx]: the whole construction, and what the observers return. *)
From Coq Require Import List Arith ZArith Bool Lia ZifyBool Sorted Permutation.
From Verif Require Import PidModel PermProofs SnfModel SnfProofs2 MatModel MatProofs GraphModel GraphSpec GraphProofs GraphProofs2 GraphProofs4 GraphProofs7 GraphProofs8 GraphProps UtilModel UtilSpec UtilProofs UtilProofs2 CubeModel CubeSpec CubeProofs CubeProofs2 CubeProofs3 MorseModel MorseSpec MorseProofs MorseCplxModel MorseCplxSpec MorseCplxProofs MorseCplxProofs2 MorseCplxProofs3.
Import ListNotations.
Open Scope nat_scope.

(** The initial set: vertex 0 and the edges that skip a vertex. *)
Definition initS (g : rawg) (labels : list factor) (F : factor -> bool) : Prop :=
  (forall v, F (FVertex v) = true <-> v = 0) /\ (forall x y, F (FEdge x y) = true <-> x + 1 < y /\ edge g x y = true).
(** The cells listed by the enumeration. *)
Definition lists (g : rawg) (upper : option nat) (r : nat) (c : cplx) : Prop :=
  exists labels F, NoDup labels /\ (forall f, In f labels <-> closed_cell g f) /\ (exists es, labels = map FVertex (seq 0 (g_n g)) ++ map (fun e : nat * nat => FEdge (fst e) (snd e)) es) /\ initS g labels F /\ Inv g (S r) c (fst (enumS g labels upper r [] F)).

Section Top.
Variable g : rawg.
Variable n : nat.
Hypothesis HS : spread g n.
Let HA := sp_AR g n HS.
Lemma top_N : 2 <= g_n g /\ n <= g_n g.
Proof. destruct (sp_stem g n HS) as (A & _). destruct (sp_stem2 g n HS) as (B & _). split; assumption. Qed.
Lemma edge01 : edge g 0 1 = true.
Proof.
  destruct top_N as (A & _). destruct (has_parent g HA 1) as (w & C); [lia|lia|]. destruct (child_lt g HA w 1 C) as (L & _ & E). assert (w = 0) by lia. now subst w.
Qed.
Lemma top_spec upper r : n = S r -> exists c, morse_cplx_of g n upper = Some c /\ lists g upper r c.
Proof.
  intros En. destruct top_N as (N2 & Nn). unfold morse_cplx_of. rewrite (proj2 (Nat.ltb_ge _ _) N2).
  destruct (factors_spec g (AR_GI g HA) N2) as (labels & El & ND & HI & _).
  assert (Hord : exists es, labels = map FVertex (seq 0 (g_n g)) ++ map (fun e : nat * nat => FEdge (fst e) (snd e)) es) by (unfold factors in El; destruct (edge_iter g) as [es|]; [|discriminate El]; cbn [obind] in El; injection El as <-; eauto).
  rewrite El. clear El. cbn [obind].
  assert (Hlab : forall f, In f labels <-> closed_cell g f). { intros f. rewrite HI. split; [|auto]. intros [H| ->]; [exact H|]. split; [lia|exact edge01]. } clear HI.
  assert (R0 : LRel labels (fun _ => false) (lset_new labels)). { destruct (UtilProofs.new_spec (length labels)) as (A & B & C). split; [reflexivity|split; [exact A|split; [exact B|]]]. intros; apply C. }
  destruct (p_add_spec labels _ _ (FVertex 0) ND R0) as (s1 & -> & R1); [apply Hlab; cbn; unfold g_n_vertices; lia|]. cbn [obind].
  destruct (edge_iter_spec g (AR_GI g HA) N2) as (l & -> & _ & HI). cbn [obind].
  rewrite (CubeProofs.filterM_filter _ (fun f => match f with FEdge x y => negb (y - x =? 1) | FVertex _ => false end)).
  2:{ intros f Hf. apply in_map_iff in Hf as ((x & y) & <- & Hxy). cbn [fst snd]. unfold is_order_respecting, f_edge. cbn [obind fst snd]. assert (x < y) by (destruct Hxy as [[= <- <-]|Hxy]; [lia|apply HI in Hxy; lia]). rewrite (proj2 (Nat.leb_le x y)) by lia. reflexivity. }
  cbn [obind]. set (es := filter _ _).
  assert (Hes : forall f, In f es <-> exists x y, f = FEdge x y /\ x + 1 < y /\ edge g x y = true).
  { intros f. unfold es. rewrite filter_In, in_map_iff. split.
    - intros (((x & y) & <- & Hxy) & K). cbn [fst snd] in *. apply negb_true_iff, Nat.eqb_neq in K. destruct Hxy as [[= <- <-]|Hxy]; [lia|]. apply HI in Hxy. exists x, y. split; [reflexivity|]. split; [lia|apply Hxy].
    - intros (x & y & -> & L & E). split.
      + exists (x, y). split; [reflexivity|]. right. apply HI. pose proof (edge_lt g x y (AR_GI g HA) E). split; [lia|]. split; [lia|]. split; [exact E|]. intros K. injection K as -> ->. lia.
      + apply negb_true_iff, Nat.eqb_neq. lia. }
  destruct (p_adds labels ND es _ s1 R1) as (s2 & -> & R2). { intros f Hf. apply Hes in Hf as (x & y & -> & L & E). apply Hlab. split; [lia|exact E]. } cbn [obind].
  set (F := addS _ es) in *. assert (HF : initS g labels F).
  { unfold F. split.
    - intros v. rewrite !addS_true. split; [|intros ->; left; right; now left]. intros [[K|[[= ->]|[]]]|K]; [discriminate|reflexivity|]. apply Hes in K as (x & y & K & _). discriminate.
    - intros x y. rewrite !addS_true. split.
      + intros [[K|[K|[]]]|K]; [discriminate|discriminate|]. apply Hes in K as (a & b & [= <- <-] & K). exact K.
      + intros K. right. apply Hes. exists x, y. split; [reflexivity|exact K]. }
  rewrite En. destruct (expand_ok g HA labels ND Hlab upper n (sp_high g n HS) Nn r (Cplx g [] [] [] 0 (repeat 0 (n + 1))) None [] s2 F []) as (c & s & E & I & _ & _).
  - constructor; cbn [c_pool c_final c_data c_ranks c_dim]; [reflexivity|constructor| |reflexivity]. assert (RR : forall m k, repeat 0 m = map (fun k => count k []) (seq k m)) by (induction m as [|m IH]; intros k; [reflexivity|]; cbn [repeat seq map]; now rewrite <- IH). apply RR.
  - cbn. auto.
  - split; [constructor|]. split; [constructor|]. split; [constructor|]. intros x y [].
  - intros x y K _. now apply HF in K.
  - exact R2.
  - cbn [length]. lia.
  - cbn [app] in I. rewrite <- En in E |- *. rewrite E. cbn [obind fst]. exists c. split; [reflexivity|]. exists labels, F. rewrite <- En. split; [exact ND|]. split; [exact Hlab|]. split; [exact Hord|]. split; [exact HF|]. exact I.
Qed.
Lemma lists_good upper r c : n = S r -> lists g upper r c -> exists ps, Inv g n c ps /\ NoDup ps /\ forall p, In p ps -> good g p /\ length p = n.
Proof.
  intros En (labels & F & ND & Hlab & _ & HF & I). exists (fst (enumS g labels upper r [] F)). rewrite En. split; [exact I|].
  assert (G0 : good g []) by (split; [constructor|]; split; [constructor|]; split; [constructor|]; intros x y []). assert (O0 : okS labels F) by (intros x y K _; now apply HF in K).
  split; [now apply enum_NoDup|]. intros p Hp. destruct (enum_good g labels Hlab upper r [] F p G0 O0 Hp) as (G & l & L & ->). rewrite app_nil_r in *. auto.
Qed.
End Top.

(** What the observers return, given the paths. *)
Lemma cubes_at c : forall is ps, Forall2 (up (c_data c)) is ps -> omapM (cube_at c) is = Some (map (@rev factor) ps).
Proof. induction 1 as [|i p is ps H F IH]; [reflexivity|]. cbn [omapM map]. unfold cube_at at 1. rewrite (factor_iter_up _ _ _ H). cbn [obind]. rewrite IH. reflexivity. Qed.
Lemma final_dim c d : forall is ps, Forall2 (up (c_data c)) is ps -> exists js, filterM (fun i => do k <- dim_of c i; Some (k =? d)) is = Some js /\ Forall2 (up (c_data c)) js (filter (fun p => dimension p =? d) ps).
Proof.
  induction 1 as [|i p is ps H F (js & E & U)]; [exists []; split; [reflexivity|constructor]|]. cbn [filterM filter]. rewrite (dim_of_up _ _ _ H). cbn [obind]. rewrite E. cbn [obind]. destruct (dimension p =? d); eexists; split; try reflexivity; auto.
Qed.
Lemma cells_of c g n ps d : Inv g n c ps -> get_cells_of_dim c d = Some (map (@rev factor) (filter (fun p => dimension p =? d) ps)).
Proof. intros I. unfold get_cells_of_dim. destruct (final_dim c d _ _ (I_final _ _ _ _ I)) as (js & -> & U). cbn [obind]. now apply cubes_at. Qed.
Lemma dimension_cons f p : dimension (f :: p) = (if is_edge f then 1 else 0) + dimension p.
Proof. unfold dimension. cbn [filter]. destruct f; reflexivity. Qed.
Lemma dimension_rev p : dimension (rev p) = dimension p.
Proof. apply dimension_perm. symmetry. apply Permutation_rev. Qed.
(** The bound on the dimension. *)
Lemma next_dim g labels u r p F f : 1 <= u -> dimension p <= u -> In f (nextS g labels (Some u) r p F) -> dimension (f :: p) <= u.
Proof.
  intros Hu Hp Hf. rewrite dimension_cons. destruct f as [x y|v]; cbn [is_edge]; [|lia]. destruct p as [|q p]; [cbn; lia|]. unfold nextS in Hf. apply filter_In in Hf as (_ & Hf). unfold admS in Hf. cbn [is_vertex] in Hf.
  destruct (r + 1 =? _); [discriminate|]. destruct ((r =? 0) && _); [discriminate|]. apply negb_true_iff, Nat.eqb_neq in Hf. lia.
Qed.
Lemma enum_dim g labels u r F q : (forall f, In f labels <-> closed_cell g f) -> 1 <= u -> In q (fst (enumS g labels (Some u) r [] F)) -> dimension q <= u.
Proof.
  intros Hlab Hu Hq. destruct (enum_inv g labels Hlab (Some u) (fun p _ => dimension p <= u)) with (r := r) (p := @nil factor) (F := F) (q := q) as (l & f & p' & F' & -> & -> & L & J & Hf); auto; [|cbn; lia|].
  - intros r' p F0 F' f J _ Hf. now apply (next_dim g labels u r' p F0).
  - now apply (next_dim g labels u 0 _ F').
Qed.
(** Listed configurations. *)
Lemma good_rev g n p : good g p -> length p = n -> configuration g n (rev p) /\ listed (rev p) /\ forall x y, In (FEdge x y) (rev p) -> x + 1 < y.
Proof.
  intros (A & B & C & D) L. split; [split; [now rewrite rev_length|split; [now apply Forall_rev|]]|split].
  - apply (pd_perm p); [apply Permutation_rev|exact B].
  - unfold listed. clear -C. induction C as [|a p S IH F]; [constructor|]. cbn [rev]. rewrite Forall_forall in F. clear S. assert (F' : forall b, In b (rev p) -> low b < low a) by (intros b Hb; apply F; now apply in_rev).
    revert IH F'. generalize (rev p). intros l. clear. induction l as [|b l IH]; intros SS F; [constructor; constructor|]. inversion SS as [|? ? S1 S2]; subst. cbn [app]. constructor; [apply IH; [exact S1|intros c Hc; apply F; now right]|].
    apply Forall_app. split; [exact S2|]. constructor; [apply F; now left|constructor].
  - intros x y H. apply in_rev in H. now apply D.
Qed.
