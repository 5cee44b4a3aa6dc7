(** C141: the homology of a cone, and of a single simplex, is reported as that of a point. *)
From Coq Require Import List Arith ZArith Bool Lia ZifyBool ZifyNat Sorted.
From Verif Require Import PidModel LinModel LinSpec LinProofs3 MatModel MatSpec HomModel HomSpec HomProps SimpModel SimpSpec SimpProps CompSpec CompProps IsoSpec IsoProofs IsoProofs4 IsoProofs5 IsoProps ConeSpec ConeProofs.
Import ListNotations.
Open Scope nat_scope.

Lemma dim_exists {T} (hist : list (list T)) : valid_hist hist -> hist <> [] -> exists d, has_dim hist d.
Proof.
  intros V. induction V as [|s hist (Hs & _) V IH]; intros N; [congruence|]. destruct hist as [|s' hist].
  - exists (length s - 1). destruct s as [|x s]; [congruence|]. cbn [length]. split; [exists (x :: s); split; [now left|cbn; lia]|]. intros s' [<-|[]]. cbn. lia.
  - destruct IH as (d & (m & Hm & Lm) & Hd); [discriminate|]. destruct (Nat.le_gt_cases (length s) (S d)) as [L|L].
    + exists d. split; [exists m; split; [now right|exact Lm]|]. intros t [<-|Ht]; [exact L|now apply Hd].
    + exists (length s - 1). split; [exists s; split; [now left|lia]|]. intros t [<-|Ht]; [lia|]. specialize (Hd t Ht). lia.
Qed.
Lemma skeleton_head {T} (eqb : T -> T -> bool) a hist : exists R, skeleton eqb ([a] :: hist) = a :: R.
Proof.
  unfold skeleton. cbn [concat app fold_left existsb]. assert (G : forall l R, exists R', fold_left (fun acc x => if existsb (eqb x) acc then acc else acc ++ [x]) l (a :: R) = a :: R').
  { induction l as [|x l IH]; intros R; cbn [fold_left]; [now exists R|]. destruct (existsb (eqb x) (a :: R)); [apply IH|]. cbn [app]. apply IH. }
  apply G.
Qed.
Lemma trivial_quotient (Cyc Bnd : list Z -> Prop) : (forall x, Cyc x -> Bnd x) -> Cyc (@nil Z) \/ (exists x, Cyc x) -> quotient_is Cyc Bnd [].
Proof.
  intros H HE. exists (fun _ => []). split; [reflexivity|]. split; [intros; repeat split; intros i Hi; cbn in Hi; lia|]. split.
  - intros x Hx. split; [intros _; now apply H|]. intros _. repeat split. intros i Hi. cbn in Hi. lia.
  - intros g Hg. destruct HE as [HE|(x & HE)]; [exists []|exists x]; (split; [exact HE|]); repeat split; try exact Hg; intros i Hi; cbn in Hi; lia.
Qed.

(** Every complex that is a cone is reported as a point: free rank 1 in degree 0, nothing above, no torsion. *)
Theorem C141_cone : forall T (eqb : T -> T -> bool) a hist, (forall x y, eqb x y = true <-> x = y) -> valid_hist hist -> length (skeleton eqb hist) <= 64 -> is_cone a hist ->
  exists K bm, attach_all eqb hist = Some K /\ boundary_map K = Some bm /\ forall cmp max_dim, total_order cmp ->
    exists out, integral_homology cmp bm max_dim = Some out /\ reported_rank out 0 = 1 /\ (forall k, 0 < k -> reported_rank out k = 0) /\ forall k, reported_divisors out k = [].
Proof.
  intros T eqb a hist He V L (Hne & HA). destruct (dim_exists hist V Hne) as (d & Hd).
  assert (V' : valid_hist ([a] :: hist)) by (constructor; [split; [discriminate|constructor; [intros []|constructor]]|exact V]).
  assert (F : forall s, In s hist -> face_of ([a] :: hist) s) by (intros s Hs; exists s; split; [now right|apply incl_refl]).
  assert (F' : forall s, In s ([a] :: hist) -> face_of hist s).
  { intros s [<-|Hs]; [|exists s; split; [exact Hs|apply incl_refl]]. destruct hist as [|s0 hist]; [congruence|]. destruct (HA s0 (or_introl eq_refl)) as (s' & Hs' & I). exists s'. split; [exact Hs'|]. intros y [<-|[]]. apply I. now left. }
  assert (SI : simplicial_iso (fun x => x) (fun x => x) hist ([a] :: hist)) by (split; [reflexivity|]; split; [reflexivity|]; split; intros s Hs; rewrite map_id; auto).
  destruct (C140_isomorphic T T eqb eqb _ _ hist ([a] :: hist) d He He V V' L Hd SI) as (Hd' & LE & K & bm & K' & bm' & EK & EB & EK' & EB' & HH).
  assert (L' : length (skeleton eqb ([a] :: hist)) <= 64) by lia.
  destruct (facts eqb ([a] :: hist) d He V' L' Hd') as (K2 & bm2 & EK2 & EB2 & LB & CD & HC & H0 & HE). rewrite EK' in EK2. injection EK2 as <-. rewrite EB' in EB2. injection EB2 as <-.
  assert (HA' : forall s, In s ([a] :: hist) -> face_of ([a] :: hist) (a :: s)).
  { intros s Hs. destruct (F' s Hs) as (s1 & Hs1 & I1). destruct (HA s1 Hs1) as (s2 & Hs2 & I2). exists s2. split; [now right|]. intros y [<-|Hy]; apply I2; [now left|right; now apply I1]. }
  destruct (skeleton_head eqb a hist) as (R & HS). exists K, bm. split; [exact EK|]. split; [exact EB|]. intros cmp max_dim Ht. destruct (HH cmp cmp max_dim Ht Ht) as (out & out' & EO & EO' & SM). exists out. split; [exact EO|].
  destruct (C140_canonical _ cmp bm' max_dim Ht CD) as (out2 & EO2 & CAN). rewrite EO' in EO2. injection EO2 as <-.
  (* degree 0 *)
  assert (NC : n_components eqb ([a] :: hist) 1).
  { exists (fun _ => 0). assert (J : forall x, In x (skeleton eqb ([a] :: hist)) -> exists s, In s ([a] :: hist) /\ In a s /\ In x s).
    { intros x Hx. apply skeleton_iff in Hx; [|assumption..]. destruct Hx as (s & Hs & Hx). destruct (HA' s Hs) as (s' & Hs' & I). exists s'. split; [exact Hs'|]. split; apply I; [now left|now right]. }
    split; [|split; [lia|]].
    - intros x y Hx Hy. split; [intros _|reflexivity]. destruct (J x Hx) as (s & Hs & As & Xs). destruct (J y Hy) as (s' & Hs' & As' & Ys). apply (j_step _ x a y s'); [apply (j_step _ x x a s); [apply j_refl|assumption..]|assumption..].
    - intros k Hk. exists a. split; [rewrite HS; now left|lia]. }
  destruct (C110_components_partial T eqb ([a] :: hist) d 1 He V' L' Hd' NC) as (K3 & bm3 & d0 & EK3 & EB3 & Ed0 & Q0 & _). rewrite EK' in EK3. injection EK3 as <-. rewrite EB' in EB3. injection EB3 as <-.
  destruct (CAN 0 d0 1 [] Ed0) as (R0 & D0); [destruct max_dim; [lia|exact I]|constructor|constructor|exact Q0|].
  assert (P : forall k, 0 < k -> reported_rank out' k = 0 /\ reported_divisors out' k = []).
  { intros k Hk. destruct (nth_error out' k) as [m|] eqn:Eo; [|unfold reported_rank, reported_divisors; rewrite Eo; split; reflexivity].
    destruct (C43_homology_partial _ cmp bm' max_dim Ht CD) as (out2 & EO2 & LO & HO & _). rewrite EO' in EO2. injection EO2 as <-. destruct m as [[h cyc] bnd]. destruct (HO k h cyc bnd Eo) as (D & ED & _).
    assert (Hm : match max_dim with None => True | Some m => k <= m end). { assert (k < length out') by (apply nth_error_Some; congruence). destruct max_dim; [lia|exact I]. }
    destruct (CAN k D 0 [] ED Hm) as (A & B); [constructor|constructor| |split; [now symmetry|now symmetry]].
    apply trivial_quotient; [|right; exists (repeat 0%Z (nc D)); split; [apply repeat_length|]; intros i Hi; unfold apply_at; apply IsoProofs2.zsum_zero; intros j Hj; rewrite nth_repeat; lia].
    intros x Hx. apply (cone_exact eqb a ([a] :: hist) R d He V' L' Hd' HS (S k) (fun k t _ => cone_cell_up eqb a R _ k t HS HA') bm' LB CD HC HE k D x Hk ltac:(lia) ED Hx). }
  split; [now rewrite (proj1 (SM 0))|]. split.
  - intros k Hk. rewrite (proj1 (SM k)). now apply P.
  - intros k. rewrite (proj2 (SM k)). destruct k as [|k]; [now symmetry|apply P; lia].
Qed.

(** In particular a single simplex of any size. *)
Theorem C141_simplex : forall T (eqb : T -> T -> bool) s, (forall x y, eqb x y = true <-> x = y) -> s <> [] -> NoDup s -> length s <= 64 ->
  exists K bm, attach_all eqb [s] = Some K /\ boundary_map K = Some bm /\ length bm = length s /\ forall cmp max_dim, total_order cmp ->
    exists out, integral_homology cmp bm max_dim = Some out /\ reported_rank out 0 = 1 /\ (forall k, 0 < k -> reported_rank out k = 0) /\ forall k, reported_divisors out k = [].
Proof.
  intros T eqb s He Hs ND L. destruct s as [|a s]; [congruence|].
  assert (V : valid_hist [a :: s]) by (constructor; [split; assumption|constructor]).
  assert (LS : length (skeleton eqb [a :: s]) <= 64). { eapply Nat.le_trans; [|exact L]. destruct (skeleton_spec eqb [a :: s] He) as [A B]. apply NoDup_incl_length; [exact A|]. intros x Hx. apply B in Hx. destruct Hx as (t & [<-|[]] & Hx). exact Hx. }
  destruct (C141_cone T eqb a [a :: s] He V LS) as (K & bm & EK & EB & H).
  - split; [discriminate|]. intros t [<-|[]]. exists (a :: s). split; [now left|]. intros y [<-|Hy]; [now left|exact Hy].
  - exists K, bm. split; [exact EK|]. split; [exact EB|]. split; [|exact H].
    assert (Hd : has_dim [a :: s] (length s)) by (split; [exists (a :: s); split; [now left|reflexivity]|]; intros t [<-|[]]; cbn; lia).
    destruct (facts eqb [a :: s] (length s) He V LS Hd) as (K' & bm' & EK' & EB' & LB & _). rewrite EK in EK'. injection EK' as <-. rewrite EB in EB'. injection EB' as <-. exact LB.
Qed.

(** A fan of triangles and an edge around the vertex 2, which is never listed first. *)
Example C141_nontrivial : is_cone 2 [[0; 1; 2]; [1; 3; 2]; [4; 2]; [3]] /\ valid_hist [[0; 1; 2]; [1; 3; 2]; [4; 2]; [3]] /\ length (skeleton Nat.eqb [[0; 1; 2]; [1; 3; 2]; [4; 2]; [3]]) <= 64.
Proof.
  split; [split; [discriminate|]|split; [|cbn; lia]].
  - intros s [<-|[<-|[<-|[<-|[]]]]]; [exists [0; 1; 2]|exists [1; 3; 2]|exists [4; 2]|exists [1; 3; 2]]; (split; [cbn; tauto|]); intros y Hy; cbn in Hy |- *; tauto.
  - repeat constructor; cbn; try discriminate; intuition discriminate.
Qed.
Print Assumptions C141_cone.
Print Assumptions C141_simplex.
