(** C139: Smith normal form and integral homology of incidence matrices of graphs (network matrices) never overflow. *)
From Coq Require Import List Arith ZArith Bool Lia ZifyBool ZifyNat.
From Verif Require Import UtilModel PidModel LinModel LinSpec MatModel MatSpec MatProofs MatProofs2 SnfModel SnfProofs SnfProofs2 SnfProofs3 SnfProps HomModel HomSpec HomProps
  SimpModel SimpSpec SimpProps SnfChkModel SnfChkProofs SnfChkProps SnfGraphProofs SnfGraphProofs2 SnfGraphProofs3 SnfGraphProofs4 CompProps BettiProps.
Import ListNotations.
Open Scope nat_scope.

(** Every column has entries 0, 1 and -1 only, 1 at most once and -1 at most once (as in the boundary matrix of a graph). *)
Definition network (M : mat Z) : Prop := forall j, j < nc M ->
  (forall i, i < nr M -> In (ent M i j) [0; 1; -1]%Z) /\
  (forall i i', i < nr M -> i' < nr M -> ent M i j = ent M i' j -> ent M i j <> 0%Z -> i = i').
(** All entries are 0, 1 or -1. *)
Definition small (M : mat Z) : Prop := forall i j, i < nr M -> j < nc M -> In (ent M i j) [0; 1; -1]%Z.

Lemma unit_in z : unit_range z <-> In z [0; 1; -1]%Z.
Proof. unfold unit_range. cbn. lia. Qed.
Lemma small_mk n m f : (forall r l, r < n -> l < m -> unit_range (f r l)) -> small (mk n m f).
Proof. intros H i j Hi Hj. rewrite nr_mk in Hi. rewrite nc_mk in Hj. rewrite ent_mk by assumption. now apply unit_in, H. Qed.
Lemma network_src M : network M -> exists src tgt, forall r l, r < nr M -> l < nc M -> ent M r l = (dl (src l) r - dl (tgt l) r)%Z.
Proof. intros H. apply (network_ends 2%Z ltac:(lia)). intros l Hl. destruct (H l Hl) as [H1 H2]. split; [intros r Hr; now apply unit_in, H1|exact H2]. Qed.

(** C139.  Both builds return the exact answer on any type of at least two bits; all five matrices have entries 0, 1, -1 only,
    and both pairs of transformations are inverse to each other (what C37 refutes in general). *)
Theorem C139_snf : forall w M, (2 <= w)%Z -> wf M -> 0 < nr M -> 0 < nc M -> network M ->
  exists Ri R D C Ci, smith_normal_form M = Some (Ri, R, D, C, Ci) /\
    smith_normal_form_p (debug w) M = Some (Ri, R, D, C, Ci) /\ smith_normal_form_p (release w) M = Some (Ri, R, D, C, Ci) /\
    small Ri /\ small R /\ small D /\ small C /\ small Ci /\
    inverses (nr M) R Ri /\ inverses (nc M) C Ci /\ (do RM <- mmul R M; mmul RM C) = Some D /\ exists rk, smith_diagonal rk D.
Proof.
  intros w M Hw W Hn Hm HN. destruct (network_src M HN) as (src & tgt & HF).
  destruct (snf_units w (nr M) (nc M) src tgt (ent M) Hw Hn Hm HF) as (Ri & R & S & C & Ci & rk & E & U & _ & HI). rewrite <- wf_eq_mk in E by exact W.
  destruct (C134_debug _ _ _ _ _ _ _ W Hn Hm E) as (_ & _ & _ & F4 & F5 & F6 & _).
  eexists _, _, _, _, _. split; [exact (proj1 (ag_snf debug good_debug M) _ _ E)|]. split; [exact E|]. split; [apply C134_release_agrees; [lia|exact E]|].
  destruct U as (S' & R' & Ri' & C' & Ci' & Est & U1 & U2 & U3 & U4 & U5). injection Est as ES ER ERi EC ECi.
  assert (X : forall n m f g, map (fun i => map (f i) (seq 0 m)) (seq 0 n) = map (fun i => map (g i) (seq 0 m)) (seq 0 n) -> (forall r l, r < n -> l < m -> unit_range (g r l)) -> small (mk n m f)).
  { intros n m f g Q Hg. replace (mk n m f) with (mk n m g) by (unfold mk; now rewrite Q). now apply small_mk. }
  split; [eapply X; eassumption|]. split; [eapply X; eassumption|]. split; [eapply X; eassumption|]. split; [eapply X; eassumption|]. split; [eapply X; eassumption|].
  split; [exact F6|]. split; [now apply inverses_mk|]. split; [exact F4|exact F5].
Qed.
Print Assumptions C139_snf.

(** Homology of a complex of such matrices: both builds return the exact result; cycles and boundaries have coefficients 1 and -1 only, and no number
    other than -1 is listed as a divisor. *)
Theorem C139_homology : forall B cmp w (bms : list (mat Z * list B)) max_dim, total_order cmp -> complex_data bms -> (2 <= w)%Z ->
  Forall (fun bm => network (fst bm) /\ NoDup (snd bm)) bms ->
  exists out, integral_homology cmp bms max_dim = Some out /\
    integral_homology_p (debug w) cmp bms max_dim = Some out /\ integral_homology_p (release w) cmp bms max_dim = Some out /\
    forall h cyc bnd, In (h, cyc, bnd) out -> (forall v c b, In v (cyc ++ bnd) -> In (c, b) v -> In c [1; -1]%Z) /\ forall d n, In (d, n) (elementary_divisors h) -> d = (-1)%Z.
Proof.
  intros B cmp w bms max_dim Ht HC Hw HN. destruct (C43_homology_partial B cmp bms max_dim Ht HC) as (out & E & _ & HD & _).
  assert (HG : Forall (good_bm (B := B)) bms).
  { rewrite Forall_forall in HN |- *. intros bm Hbm. destruct (HN bm Hbm) as [N1 N2]. destruct (In_nth_error _ _ Hbm) as [k Hk]. destruct HC as (_ & (C1 & _) & _).
    destruct (C1 k (fst bm)) as (W & Hn & Hm); [now rewrite nth_error_map, Hk|]. exists (nr (fst bm)), (nc (fst bm)), (ent (fst bm)). split; [now apply wf_eq_mk|]. repeat (split; [assumption|]). now apply network_src. }
  destruct (homology_unit cmp Ht w Hw bms max_dim HG) as [H1 H2]. assert (ED : integral_homology_p (debug w) cmp bms max_dim = Some out) by now rewrite H1.
  exists out. split; [exact E|]. split; [exact ED|]. split; [apply C135_release_agrees; [lia|exact ED]|]. intros h cyc bnd Hin. specialize (H2 out E). rewrite Forall_forall in H2.
  destruct (H2 _ Hin) as (V1 & V2 & V3). cbn [fst snd] in V1, V2, V3. destruct (In_nth_error _ _ Hin) as [k Hk]. split.
  - intros v c b Hv Hc. destruct (HD k h cyc bnd Hk) as (d & Hd & _). rewrite nth_error_map in Hd. destruct (nth_error bms k) as [[d' bs]|] eqn:Eb; [|discriminate]. 
    destruct (C62_cycles_basis B cmp bms max_dim out k h cyc bnd d' bs Ht HC E Hk Eb) as (Cc & _). destruct (C63_boundaries_basis B cmp bms max_dim out k h cyc bnd d' bs Ht HC E Hk Eb) as (Cb & _).
    assert (U : unit_vec v /\ canonical_vec cmp v).
    { rewrite Forall_forall in V1, V2, Cc, Cb. apply in_app_or in Hv. destruct Hv; auto. }
    destruct U as [U1 U2]. unfold unit_vec in U1. rewrite Forall_forall in U1. specialize (U1 _ Hc). cbn [fst] in U1. unfold unit_range in U1.
    assert (c <> 0%Z). { destruct U2 as [U2 U3]. first [rewrite Forall_forall in U2; exact (U2 _ Hc)|rewrite Forall_forall in U3; exact (U3 _ Hc)]. }
    cbn. lia.
  - intros d n Hd. destruct (HD k h cyc bnd Hk) as (? & _ & _ & _ & FD & _). rewrite Forall_forall in FD. destruct (FD _ Hd) as (F1 & F2 & _). unfold unit_divs in V3. rewrite Forall_forall in V3. specialize (V3 _ Hd).
    cbn [fst] in *. unfold unit_range in V3. lia.
Qed.
Print Assumptions C139_homology.

(** Graphs given by attaching simplices: the homology of a one-dimensional simplicial complex is computed exactly in every build. *)
Theorem C139_graph : forall T (eqb : T -> T -> bool) hist w, (forall x y, eqb x y = true <-> x = y) ->
  valid_hist hist -> length (skeleton eqb hist) <= 64 -> has_dim hist 1 -> (2 <= w)%Z ->
  exists K bm, attach_all eqb hist = Some K /\ boundary_map K = Some bm /\ forall cmp max_dim, total_order cmp ->
    exists out, integral_homology cmp bm max_dim = Some out /\ integral_homology_p (debug w) cmp bm max_dim = Some out /\ integral_homology_p (release w) cmp bm max_dim = Some out /\
      forall h cyc bnd, In (h, cyc, bnd) out -> (forall v c b, In v (cyc ++ bnd) -> In (c, b) v -> In c [1; -1]%Z) /\ forall d n, In (d, n) (elementary_divisors h) -> d = (-1)%Z.
Proof.
  intros T eqb hist w He HV HL Hd Hw. destruct (C45_cells_partial T eqb hist 1 He HV HL Hd) as (K & bm & EK & _ & _ & _ & EB & LB & HC).
  destruct (C46_entries_partial T eqb hist 1 He HV HL Hd) as (K' & bm' & EK' & EB' & _ & (D0 & rows & E0 & EZ) & HE). rewrite EK in EK'. injection EK' as <-. rewrite EB in EB'. injection EB' as <-.
  destruct (C46_homology_input_partial T eqb hist 1 He HV HL Hd) as (K' & bm' & EK' & EB' & _ & CD & ND & _). rewrite EK in EK'. injection EK' as <-. rewrite EB in EB'. injection EB' as <-.
  exists K, bm. split; [exact EK|]. split; [exact EB|]. intros cmp max_dim Ht. apply C139_homology; [exact Ht|exact CD|exact Hw|].
  rewrite Forall_forall in ND |- *. intros b Hb. split; [|now apply ND]. destruct (In_nth_error _ _ Hb) as [k Hk].
  assert (Hlt : k < 2) by (rewrite <- LB; apply nth_error_Some; congruence). destruct k as [|[|k]]; [| |lia].
  - rewrite E0 in Hk. injection Hk as <-. cbn [fst]. assert (0 < length rows) by (destruct rows; [discriminate EZ|cbn; lia]). rewrite mzero_mk in EZ by lia. injection EZ as <-.
    intros j Hj. rewrite nc_mk in Hj. split; [intros i Hi; rewrite nr_mk in Hi; rewrite ent_mk by assumption; now left|]. intros i i' Hi _ _ Q. rewrite nr_mk in Hi. rewrite ent_mk in Q by assumption. now destruct Q.
  - destruct (HE 0 ltac:(lia)) as (D0' & rows' & D & cols & E0' & E1 & Hnr & Hnc & Hent). change (0 + 1) with 1 in E1. rewrite Hk in E1. injection E1 as ->. cbn [fst].
    destruct (HC 0 ltac:(lia)) as (? & ? & Q0 & (NDr & _) & _). rewrite E0' in Q0. injection Q0 as <- <-.
    destruct (HC 1 ltac:(lia)) as (? & ? & Q1 & (NDc & HLc) & _). rewrite Hk in Q1. injection Q1 as <- <-.
    destruct CD as (_ & (C1 & _) & _). destruct (C1 1 D) as (W & _ & _); [now rewrite nth_error_map, Hk|].
    intros j Hj. rewrite Hnc in Hj. destruct (nth_error cols j) as [s|] eqn:Es; [|apply nth_error_None in Es; lia].
    assert (Hs : is_cell eqb hist 1 (s_labels s)) by (apply HLc, in_map; eapply nth_error_In; eassumption). destruct Hs as (Ssub & Slen & _).
    assert (Q : forall i t, nth_error rows' i = Some t -> i < nr D -> face_sign (s_labels t) (s_labels s) (ent D i j)).
    { intros i t Hi Hi'. destruct (Hent i j s t Hi Es) as (e & Ge & Fe). rewrite (wf_eq_mk D W), mget_mk in Ge. replace ((i <? nr D) && (j <? nc D)) with true in Ge by lia. injection Ge as <-. exact Fe. }
    destruct (s_labels s) as [|a [|b [|? ?]]]; try discriminate Slen.
    assert (V : forall i t, nth_error rows' i = Some t -> i < nr D -> (ent D i j = 0%Z \/ (ent D i j = 1%Z /\ s_labels t = [a]) \/ (ent D i j = (-1)%Z /\ s_labels t = [b]))).
    { intros i t Hi Hi'. destruct (Q i t Hi Hi') as [(x & Hx & Rx & Ex)|[_ Z0]]; [|now left]. right. cbn [length] in Hx, Ex. destruct x as [|[|x]]; [right|left|lia]; cbn in Rx, Ex; auto. }
    split.
    + intros i Hi. destruct (nth_error rows' i) as [t|] eqn:Et; [|apply nth_error_None in Et; lia]. destruct (V i t Et Hi) as [V0|[[V0 _]|[V0 _]]]; rewrite V0; cbn; tauto.
    + intros i i' Hi Hi' Qe Qn. destruct (nth_error rows' i) as [t|] eqn:Et; [|apply nth_error_None in Et; lia]. destruct (nth_error rows' i') as [t'|] eqn:Et'; [|apply nth_error_None in Et'; lia].
      apply (proj1 (NoDup_nth_error (map s_labels rows')) NDr); [rewrite map_length; lia|]. rewrite !nth_error_map, Et, Et'. cbn. f_equal.
      destruct (V i t Et Hi) as [V0|[[V0 V1]|[V0 V1]]]; [congruence| |]; destruct (V i' t' Et' Hi') as [W0|[[W0 W1]|[W0 W1]]]; congruence || (exfalso; rewrite V0, W0 in Qe; discriminate).
Qed.
Print Assumptions C139_graph.

(** Non-trivial cases: a network with a loop (zero column), a half edge and a cycle; the same numbers in a triangle of edges with a separate vertex. *)
Definition net : mat Z := Mat 3 5 [[1; 0; -1; 0; 0]; [-1; 1; 0; 0; -1]; [0; -1; 1; 0; 0]]%Z.
Example C139_nontrivial : wf net /\ network net /\
  (do s <- smith_normal_form_p (debug 2) net; Some (snd (fst (fst s)))) = Some (Mat 3 5 [[1; 0; 0; 0; 0]; [0; 1; 0; 0; 0]; [0; 0; -1; 0; 0]]%Z) /\
  valid_hist circle_point /\ length (skeleton Nat.eqb circle_point) <= 64 /\ has_dim circle_point 1 /\
  (do K <- attach_all Nat.eqb circle_point; do bm <- boundary_map K; do out <- integral_homology_p (debug 2) simplex_cmp bm None; Some (reported out 0, reported out 1)) = Some (2, 1).
Proof.
  split; [split; [reflexivity|repeat constructor]|]. split; [|split; [vm_compute; reflexivity|]].
  - intros j Hj. cbn in Hj. split; [intros i Hi; cbn in Hi; do 5 (destruct j as [|j]; [do 3 (destruct i as [|i]; [cbn; tauto|]); lia|]); lia|].
    intros i i' Hi Hi'. cbn in Hi, Hi'. do 5 (destruct j as [|j]; [do 3 (destruct i as [|i]; [do 3 (destruct i' as [|i']; [cbn; (reflexivity || lia)|]); lia|]); lia|]); lia.
  - destruct circle_hyps as (A & B & C). split; [exact A|]. split; [exact B|]. split; [exact C|]. vm_compute. reflexivity.
Qed.
