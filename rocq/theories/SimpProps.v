(** Theorems about simplicial complexes: cells (C45), boundary matrices (C46). *)
From Coq Require Import List Arith ZArith NArith Bool Lia ZifyBool ZifyNat ZifyN Permutation Sorted.
From Verif Require Import UtilModel UtilSpec UtilProofs PidModel LinModel LinSpec LinProofs MatModel MatSpec MatProofs SnfModel RankSpec HomModel HomSpec HomProps.
From Verif Require Import SimpModel SimpSpec SimpProofs SimpProofs2 SimpProofs3 SimpProofs4 SimpProofs5 SimpProofs6.
Import ListNotations.
Open Scope nat_scope.

Section Run.
  Context {T : Type}.
  Variable eqb : T -> T -> bool.
  Hypothesis eqb_spec : forall x y, eqb x y = true <-> x = y.
  Variable hist : list (list T).
  Hypothesis HV : valid_hist hist.
  Hypothesis HL : length (skeleton eqb hist) <= 64.

  Lemma run d : has_dim hist d -> exists K ls, attach_all eqb hist = Some K /\ Inv (skeleton eqb hist) hist hist K /\ cplx_dim K = Some d /\
    levels (skeleton eqb hist) K d ls /\
    boundary_map K = Some (map (fun k => (dmat ls k, map (simp (skeleton eqb hist)) (nth k ls []))) (seq 0 (S d))).
  Proof.
    intros Hd. destruct (attach_all_Inv eqb eqb_spec hist HV HL) as (K & E & HI). pose proof (dim_spec eqb eqb_spec _ _ _ HI d HV eq_refl Hd) as Ed.
    destruct (boundary_map_spec (skeleton eqb hist) hist hist K HI) with (d := d) as (ls & A & B); [|exact Ed|].
    - intros c Hc. apply (get_simplex_good _ _ _ HI c (wd c) Hc).
    - exists K, ls. auto.
  Qed.
End Run.

Lemma map_nth_error_seq {A} (f : nat -> A) n k : nth_error (map f (seq 0 n)) k = if k <? n then Some (f k) else None.
Proof.
  destruct (Nat.ltb_spec k n); [now apply map_seq_nth_error|]. apply nth_error_None. now rewrite map_length, seq_length.
Qed.

(** C45. The basis of degree [k] lists each [k]-cell of the generated complex exactly once, with its vertices in skeleton order. *)
Theorem C45_cells_partial : forall T (eqb : T -> T -> bool) hist d, (forall x y, eqb x y = true <-> x = y) ->
  valid_hist hist -> length (skeleton eqb hist) <= 64 -> has_dim hist d ->
  exists K bm, attach_all eqb hist = Some K /\ zero_skeleton K = skeleton eqb hist /\ n_vertices K = length (skeleton eqb hist) /\
    cplx_dim K = Some d /\ boundary_map K = Some bm /\ length bm = S d /\
    forall k, k <= d -> exists D bs, nth_error bm k = Some (D, bs) /\ lists_cells eqb hist k (map s_labels bs) /\ Forall (fun s => s_dim s = k) bs.
Proof.
  intros T eqb hist d He HV HL Hd. destruct (run eqb He hist HV HL d Hd) as (K & ls & E & HI & Ed & (L1 & L2 & L3) & Eb).
  eexists K, _. split; [exact E|]. split; [apply (I_labels _ _ _ _ HI)|]. split; [unfold n_vertices; now rewrite (I_labels _ _ _ _ HI)|].
  split; [exact Ed|]. split; [exact Eb|]. split; [now rewrite map_length, seq_length|].
  intros k Hk. rewrite map_nth_error_seq. replace (k <? S d) with true by lia. eexists _, _. split; [reflexivity|]. destruct (L2 k Hk) as [HLk _]. split.
  - rewrite map_map. cbn [s_labels simp]. apply (level_lists eqb He _ _ _ HI k _ eq_refl HLk).
  - apply Forall_forall. intros s Hs. apply in_map_iff in Hs. destruct Hs as (c & <- & Hc). cbn [s_dim simp]. destruct HLk as (_ & _ & HW).
    assert (Hw : wcell K k (wd c)) by (apply HW; now apply in_map). destruct Hw as [_ Hw]. lia.
Qed.

(** The stored maximal cells: none contains another, every attached simplex lies in one of them, each is one of the attached simplices. *)
Theorem C45_maximal_partial : forall T (eqb : T -> T -> bool) hist, (forall x y, eqb x y = true <-> x = y) ->
  valid_hist hist -> length (skeleton eqb hist) <= 64 ->
  exists K ms, attach_all eqb hist = Some K /\ omapM (get_simplex K) (k_max K) = Some ms /\
    let L := map s_labels ms in
    (forall i j a b, nth_error L i = Some a -> nth_error L j = Some b -> incl a b -> i = j) /\
    (forall s, In s hist -> exists m, In m L /\ incl s m) /\
    (forall m, In m L -> exists s, In s hist /\ incl m s /\ incl s m) /\
    Forall (fun m => subseq m (skeleton eqb hist)) L.
Proof.
  intros T eqb hist He HV HL. destruct (attach_all_Inv eqb He hist HV HL) as (K & E & HI). set (labels := skeleton eqb hist) in *.
  exists K, (map (simp labels) (k_max K)). split; [exact E|]. split.
  { apply omapM_some. intros c Hc. apply (get_simplex_good _ _ _ HI). apply (max_good _ _ _ _ HI c Hc). }
  cbv zeta. rewrite map_map. cbn [s_labels simp].
  assert (Hsub : forall w w', (w < 2 ^ N.of_nat (length labels))%N -> incl (pick labels w) (pick labels w') -> wsub w w').
  { intros w w' Hw Hi i Hb. pose proof (tb_true_lt _ _ _ Hw Hb) as Hlt. destruct (nth_error labels i) as [x|] eqn:Ex; [|apply nth_error_None in Ex; lia].
    assert (Hx : In x (pick labels w')) by (apply Hi, in_pick; eauto). apply in_pick in Hx. destruct Hx as (j & Hj & Hbj).
    now rewrite (nth_inj labels (I_nodup _ _ _ _ HI) i j x). }
  assert (HA : forall i j a b, nth_error (map (fun x => pick labels (wd x)) (k_max K)) i = Some a -> nth_error (map (fun x => pick labels (wd x)) (k_max K)) j = Some b -> incl a b -> i = j).
  { intros i j a b Hi Hj Hinc. rewrite nth_error_map in Hi, Hj. destruct (nth_error (k_max K) i) as [ci|] eqn:Ei; [|discriminate]. destruct (nth_error (k_max K) j) as [cj|] eqn:Ej; [|discriminate].
    cbn in Hi, Hj. injection Hi as <-. injection Hj as <-. apply (I_anti _ _ _ _ HI i j (wd ci) (wd cj)).
    - rewrite words_map, nth_error_map, Ei. reflexivity.
    - rewrite words_map, nth_error_map, Ej. reflexivity.
    - apply Hsub; [|exact Hinc]. eapply good_lt. apply (max_good _ _ _ _ HI). eapply nth_error_In. exact Ei. }
  assert (HC : forall s, In s hist -> exists m, In m (map (fun x => pick labels (wd x)) (k_max K)) /\ incl s m).
  { intros s Hs. destruct (I_cov _ _ _ _ HI s Hs) as (w & Hw & Hx). rewrite words_map in Hw. apply in_map_iff in Hw. destruct Hw as (c & <- & Hc).
    exists (pick labels (wd c)). split; [apply in_map_iff; eauto|]. intros x Hin. apply in_pick. now apply Hx. }
  split; [exact HA|]. split; [exact HC|]. split.
  - intros m Hm. pose proof Hm as Hm'. apply in_map_iff in Hm'. destruct Hm' as (c & <- & Hc).
    assert (Hw : In (wd c) (words K)) by (rewrite words_map; now apply in_map). destruct (I_src _ _ _ _ HI _ Hw) as (s & Hs & HS).
    assert (Hms : incl (pick labels (wd c)) s).
    { intros x Hx. apply in_pick in Hx. destruct Hx as (i & Hi & Hb). destruct (HS i Hb) as (y & Hy & Hys). congruence. }
    exists s. split; [exact Hs|]. split; [exact Hms|]. destruct (HC s Hs) as (m' & Hm' & Hinc). destruct (In_nth_error _ _ Hm) as (i & Hi). destruct (In_nth_error _ _ Hm') as (j & Hj).
    assert (i = j) by (eapply HA; [exact Hi|exact Hj|]; eapply incl_tran; eassumption). subst j. rewrite Hi in Hj. injection Hj as <-. exact Hinc.
  - apply Forall_forall. intros m Hm. apply in_map_iff in Hm. destruct Hm as (c & <- & _). apply pick_subseq.
Qed.

(** A simplex with a repeated vertex, or with none, makes [attach] (or [Simplex::from]) panic. *)
Theorem C45_invalid_partial : forall T (eqb : T -> T -> bool) hist s, (forall x y, eqb x y = true <-> x = y) ->
  valid_hist hist -> length (skeleton eqb (hist ++ [s])) <= 64 -> (attach_all eqb (hist ++ [s]) = None <-> ~ (s <> [] /\ NoDup s)).
Proof.
  intros T eqb hist s He HV HL. split.
  - intros E HN. destruct (attach_all_Inv eqb He (hist ++ [s])) as (K & E' & _); [|exact HL|congruence]. apply Forall_app. split; [exact HV|]. constructor; [exact HN|constructor].
  - intros HB. now apply attach_rejects.
Qed.

(** With 65 vertices the claim fails: 65 points and the edge {0,64} give a complex without that edge. *)
Definition points65_edge : list (list nat) := map (fun i => [i]) (seq 0 65) ++ [[0; 64]].
Theorem C45_refuted : exists hist K, valid_hist hist /\ length (skeleton Nat.eqb hist) = 65 /\ In [0; 64] hist /\
  attach_all Nat.eqb hist = Some K /\ cplx_dim K = Some 0 /\ Forall (fun c => c_dim c = Some 0) (k_max K).
Proof.
  exists points65_edge. destruct (attach_all Nat.eqb points65_edge) as [K|] eqn:E; [|exfalso; revert E; vm_compute; discriminate].
  exists K. split.
  { apply Forall_app. split.
    - apply Forall_forall. intros s Hs. apply in_map_iff in Hs. destruct Hs as (i & <- & _). split; [discriminate|constructor; [intros []|constructor]].
    - constructor; [|constructor]. split; [discriminate|]. constructor; [intros [H|[]]; discriminate|constructor; [intros []|constructor]]. }
  split; [vm_compute; reflexivity|]. split; [apply in_or_app; right; now left|]. split; [reflexivity|].
  assert (E' : (if match cplx_dim K with Some 0 => true | _ => false end then forallb (fun c => match c_dim c with Some 0 => true | _ => false end) (k_max K) else false) = true).
  { assert (EO : match attach_all Nat.eqb points65_edge with Some K => (if match cplx_dim K with Some 0 => true | _ => false end then forallb (fun c => match c_dim c with Some 0 => true | _ => false end) (k_max K) else false) | None => false end = true) by (vm_compute; reflexivity).
    now rewrite E in EO. }
  clear E. destruct (cplx_dim K) as [[|]|]; [|discriminate E'|discriminate E']. split; [reflexivity|]. apply Forall_forall. intros c Hc. rewrite forallb_forall in E'. specialize (E' c Hc). destruct (c_dim c) as [[|]|]; [reflexivity|discriminate E'|discriminate E'].
Qed.

(** ** C46 *)
(** The sign with which the face [tau] occurs in the boundary of [sigma]: (-1)^(number of vertices after the deleted one). *)
Definition face_sign {T} (tau sigma : list T) (e : Z) : Prop :=
  (exists i, i < length sigma /\ removed i sigma = tau /\ e = alt (length sigma - 1 - i)) \/
  ((forall i, i < length sigma -> removed i sigma <> tau) /\ e = 0%Z).

Lemma gtc_index w k x : nth_error (bits w) k = Some x -> gtc w x = length (bits w) - 1 - k.
Proof.
  unfold gtc. intros H. pose proof (bits_sorted w) as HS. revert k H. induction HS as [|a l HS IH HF]; intros k H; [destruct k; discriminate|]. rewrite Forall_forall in HF.
  destruct k as [|k]; cbn [nth_error] in H.
  - injection H as ->. cbn [filter]. replace (x <? x) with false by lia. rewrite filter_all; [cbn [length]; lia|]. intros y Hy. apply Nat.ltb_lt. now apply HF.
  - cbn [filter]. pose proof (HF x (nth_error_In _ _ H)). replace (x <? a) with false by lia. rewrite (IH k H). cbn [length]. lia.
Qed.

Lemma inc_face_sign {T} (labels : list T) v w : NoDup labels -> length labels <= 64 -> (v < 2 ^ N.of_nat (length labels))%N -> (w < 2 ^ N.of_nat (length labels))%N ->
  face_sign (pick labels v) (pick labels w) (inc v w).
Proof.
  intros ND Hn Hv Hw. assert (H64 : (w < 2 ^ 64)%N) by (apply (wlt_mono w (length labels) 64); [assumption|lia]). unfold face_sign. rewrite (pick_len labels Hn w Hw).
  destruct (is_face v w) eqn:E.
  - left. apply (is_face_spec v w H64) in E. destruct E as (x & Hx & ->). assert (Hin : In x (bits w)) by now apply (proj2 (in_bits w x H64)).
    destruct (In_nth_error _ _ Hin) as (k & Hk). exists k. split; [apply nth_error_Some; congruence|]. split; [symmetry; now apply pick_removed|]. rewrite inc_face by assumption. f_equal. now apply gtc_index.
  - right. assert (HN : forall x, tb w x = true -> v <> wclear w x) by (intros x Hx E2; assert (is_face v w = true) by (apply is_face_spec; eauto); congruence). split.
    + intros k Hk E2. destruct (nth_error (bits w) k) as [x|] eqn:Ek; [|apply nth_error_None in Ek; lia]. rewrite <- (pick_removed labels Hn w k x Hw Ek) in E2.
      assert (Hx : tb w x = true) by (apply (proj1 (in_bits w x H64)); eapply nth_error_In; exact Ek). assert (Hx6 : x < 64) by (apply (tb_true_lt w 64); assumption).
      apply (pick_inj labels ND Hn) in E2; [|now apply wclear_lt|exact Hv]. apply (HN x Hx). now symmetry.
    + now apply inc_none.
Qed.

(** The matrix of degree [k+1] has rows and columns indexed by the bases of degrees [k] and [k+1], and signed incidences as entries;
    that of degree 0 is a zero row. *)
Theorem C46_entries_partial : forall T (eqb : T -> T -> bool) hist d, (forall x y, eqb x y = true <-> x = y) ->
  valid_hist hist -> length (skeleton eqb hist) <= 64 -> has_dim hist d ->
  exists K bm, attach_all eqb hist = Some K /\ boundary_map K = Some bm /\ length bm = S d /\
    (exists D bs, nth_error bm 0 = Some (D, bs) /\ mzero 1 (length bs) = Some D) /\
    forall k, k < d -> exists D0 rows D cols, nth_error bm k = Some (D0, rows) /\ nth_error bm (k + 1) = Some (D, cols) /\
      nr D = length rows /\ nc D = length cols /\
      forall i j s t, nth_error rows i = Some t -> nth_error cols j = Some s -> exists e, mget D i j = Some e /\ face_sign (s_labels t) (s_labels s) e.
Proof.
  intros T eqb hist d He HV HL Hd. destruct (run eqb He hist HV HL d Hd) as (K & ls & E & HI & Ed & (L1 & L2 & L3) & Eb).
  eexists K, _. split; [exact E|]. split; [exact Eb|]. split; [now rewrite map_length, seq_length|]. split.
  - eexists _, _. split; [reflexivity|]. rewrite map_length. destruct (L2 0) as [_ H0]; [lia|]. rewrite mzero_mk by (assumption || lia). reflexivity.
  - intros k Hk. rewrite !map_nth_error_seq. replace (k <? S d) with true by lia. replace (k + 1 <? S d) with true by lia. rewrite Nat.add_1_r.
    eexists _, _, _, _. split; [reflexivity|]. split; [reflexivity|]. rewrite !map_length. cbn [dmat]. split; [reflexivity|]. split; [reflexivity|].
    intros i j s t Hi Hj. rewrite nth_error_map in Hi, Hj. destruct (nth_error (nth k ls []) i) as [ci|] eqn:Ei; [|discriminate]. destruct (nth_error (nth (S k) ls []) j) as [cj|] eqn:Ej; [|discriminate].
    cbn [option_map] in Hi, Hj. injection Hi as <-. injection Hj as <-. assert (Hi' : i < length (nth k ls [])) by (apply nth_error_Some; congruence). assert (Hj' : j < length (nth (S k) ls [])) by (apply nth_error_Some; congruence).
    rewrite mget_in by assumption. eexists. split; [reflexivity|]. cbn [s_labels simp]. unfold bent. rewrite (nth_error_nth _ _ _ Ei), (nth_error_nth _ _ _ Ej).
    destruct (L2 k) as [(G1 & _) _]; [lia|]. destruct (L2 (S k)) as [(G2 & _) _]; [lia|]. rewrite Forall_forall in G1, G2.
    apply inc_face_sign; [apply (I_nodup _ _ _ _ HI)|exact HL|eapply good_lt; apply G1; eapply nth_error_In; exact Ei|eapply good_lt; apply G2; eapply nth_error_In; exact Ej].
Qed.

Lemma sum_ext_Z n (f g : nat -> Z) : (forall k, k < n -> f k = g k) -> sum n f = sum n g.
Proof. induction n as [|n IH]; intros H; cbn [sum]; [reflexivity|]. rewrite IH by (intros; apply H; lia). rewrite H by lia. reflexivity. Qed.
Lemma bm_conforming T (labels : list T) K d ls : levels labels K d ls -> complex_data (map (fun k => (dmat ls k, map (simp labels) (nth k ls []))) (seq 0 (S d))).
Proof.
  intros HLs. pose proof HLs as (L1 & L2 & L3). split; [discriminate|]. split; [split|].
  - intros k D. rewrite map_map. cbn [fst]. rewrite map_nth_error_seq. destruct (Nat.ltb_spec k (S d)); [|discriminate]. intros [= <-]. destruct (L2 k) as [_ Hp]; [lia|]. destruct k as [|k]; cbn [dmat].
    + split; [apply wf_mk|]. cbn [nr nc mk]. lia.
    + destruct (L2 k) as [_ Hp']; [lia|]. split; [apply wf_mk|]. cbn [nr nc mk]. lia.
  - intros k D E. rewrite map_map. cbn [fst]. rewrite !map_nth_error_seq. destruct (Nat.ltb_spec k (S d)); [|discriminate]. destruct (Nat.ltb_spec (k + 1) (S d)); [|discriminate]. intros [= <-] [= <-].
    rewrite Nat.add_1_r. destruct k as [|k]; cbn [dmat nr nc mk]; (split; [reflexivity|]); intros i j Hi Hj.
    + transitivity (prod_entry (length (nth 0 ls [])) (fun _ _ => 0%Z) (bent (nth 0 ls []) (nth 1 ls [])) i j).
      { unfold prod_entry. apply sum_ext_Z. intros l Hl. cbn [tmul ops_Z]. now rewrite !ent_mk by assumption. }
      unfold prod_entry. cbn [tmul ops_Z]. rewrite (sum_ext_Z _ _ (fun _ => 0%Z)) by (intros; lia). clear. induction (length (nth 0 ls [])) as [|m IH]; [reflexivity|]. cbn [sum tadd ops_Z]. now rewrite IH.
    + transitivity (prod_entry (length (nth (S k) ls [])) (bent (nth k ls []) (nth (S k) ls [])) (bent (nth (S k) ls []) (nth (S (S k)) ls [])) i j).
      { unfold prod_entry. apply sum_ext_Z. intros l Hl. cbn [tmul ops_Z]. now rewrite !ent_mk by assumption. }
      pose proof (dmat_dmat labels K d ls k i j HLs ltac:(lia)) as H1. replace (k + 2) with (S (S k)) in H1 by lia. replace (k + 1) with (S k) in H1 by lia. now apply H1.
  - apply Forall_forall. intros bm Hb. apply in_map_iff in Hb. destruct Hb as (k & <- & Hk). cbn [fst snd]. rewrite map_length. destruct k; reflexivity.
Qed.

(** The boundary of a boundary is zero: multiplying consecutive matrices with the library's product gives the zero matrix. *)
Theorem C46_boundary_squared_partial : forall T (eqb : T -> T -> bool) hist d, (forall x y, eqb x y = true <-> x = y) ->
  valid_hist hist -> length (skeleton eqb hist) <= 64 -> has_dim hist d ->
  exists K bm, attach_all eqb hist = Some K /\ boundary_map K = Some bm /\ length bm = S d /\
    forall k D bs D' bs', nth_error bm k = Some (D, bs) -> nth_error bm (k + 1) = Some (D', bs') ->
      exists Z0, mzero (nr D) (nc D') = Some Z0 /\ mmul D D' = Some Z0.
Proof.
  intros T eqb hist d He HV HL Hd. destruct (run eqb He hist HV HL d Hd) as (K & ls & E & HI & Ed & HLs & Eb).
  eexists K, _. split; [exact E|]. split; [exact Eb|]. split; [now rewrite map_length, seq_length|].
  pose proof (bm_conforming _ _ _ _ _ HLs) as (_ & (H1 & H2) & _). intros k D bs D' bs' Hk Hk'.
  assert (Ek : nth_error (map fst (map (fun k => (dmat ls k, map (simp (skeleton eqb hist)) (nth k ls []))) (seq 0 (S d)))) k = Some D) by (rewrite nth_error_map, Hk; reflexivity).
  assert (Ek' : nth_error (map fst (map (fun k => (dmat ls k, map (simp (skeleton eqb hist)) (nth k ls []))) (seq 0 (S d)))) (k + 1) = Some D') by (rewrite nth_error_map, Hk'; reflexivity).
  destruct (H1 k D Ek) as (W1 & P1 & P2). destruct (H1 (k + 1) D' Ek') as (W1' & P1' & P2'). destruct (H2 k D D' Ek Ek') as [Hc Hz].
  exists (mk (nr D) (nc D') (fun _ _ => 0%Z)). split; [now rewrite mzero_mk by assumption|]. rewrite (wf_eq_mk D W1) at 1. rewrite (wf_eq_mk D' W1') at 1. rewrite Hc, mmul_mk. f_equal.
  apply mk_ext. intros i j Hi Hj. rewrite <- Hc. now apply Hz.
Qed.

(** Hence the boundary maps are valid input for [IntegralHomology::new]: it never panics on such a complex, and by C43, C62, C63
    its output describes the homology, the cycles and the boundaries. *)
Theorem C46_homology_input_partial : forall T (eqb : T -> T -> bool) hist d, (forall x y, eqb x y = true <-> x = y) ->
  valid_hist hist -> length (skeleton eqb hist) <= 64 -> has_dim hist d ->
  exists K bm, attach_all eqb hist = Some K /\ boundary_map K = Some bm /\ length bm = S d /\ complex_data bm /\ Forall (fun b => NoDup (snd b)) bm /\
    forall cmp max_dim, total_order cmp -> exists out, integral_homology cmp bm max_dim = Some out.
Proof.
  intros T eqb hist d He HV HL Hd. destruct (run eqb He hist HV HL d Hd) as (K & ls & E & HI & Ed & HLs & Eb).
  eexists K, _. split; [exact E|]. split; [exact Eb|]. split; [now rewrite map_length, seq_length|]. pose proof (bm_conforming _ _ _ _ _ HLs) as HC. split; [exact HC|]. split.
  - apply Forall_forall. intros b Hb. apply in_map_iff in Hb. destruct Hb as (k & <- & Hk). apply in_seq in Hk. cbn [snd]. destruct HLs as (_ & L2 & _). destruct (L2 k) as [HLk _]; [lia|].
    destruct (level_lists eqb He _ _ _ HI k _ eq_refl HLk) as [ND _]. eapply NoDup_map_inv with (f := s_labels). rewrite map_map. exact ND.
  - intros cmp max_dim Ht. destruct (C43_homology_partial _ cmp _ max_dim Ht HC) as (out & Eo & _). exists out. exact Eo.
Qed.

(** The empty complex is refused: [boundary_map] (and [dim]) panic on it. *)
Theorem C46_empty_refuted : forall T, exists K : cplx T, attach_all (fun _ _ => true) [] = Some K /\ cplx_dim K = None /\ boundary_map K = None.
Proof. intros T. exists cplx_new. repeat split. Qed.

(** A filled triangle with an edge attached, entered out of order: the hypotheses hold and the values are as claimed. *)
Definition ex_hist : list (list nat) := [[5; 3; 9]; [9; 7]; [3; 5]].
Example ex_hyps : valid_hist ex_hist /\ length (skeleton Nat.eqb ex_hist) <= 64 /\ has_dim ex_hist 2.
Proof.
  split; [|split; [vm_compute; lia|]].
  - repeat (constructor; [split; [discriminate|repeat (constructor; [cbn; intuition discriminate|]); constructor]|]). constructor.
  - split; [exists [5; 3; 9]; split; [now left|reflexivity]|]. intros s [<-|[<-|[<-|[]]]]; cbn; lia.
Qed.
Example ex_values :
  (do K <- attach_all Nat.eqb ex_hist; do bm <- boundary_map K; Some (map (fun p => (rws (fst p), map s_labels (snd p))) bm)) =
  Some [([[0; 0; 0; 0]%Z], [[5]; [3]; [9]; [7]]);
        ([[1; 1; 0; 0]; [-1; 0; 1; 0]; [0; -1; -1; 1]; [0; 0; 0; -1]]%Z, [[5; 3]; [5; 9]; [3; 9]; [9; 7]]);
        ([[1]; [-1]; [1]; [0]]%Z, [[5; 3; 9]])].
Proof. vm_compute. reflexivity. Qed.
Example ex_face_sign : face_sign [5; 9] [5; 3; 9] (-1)%Z.
Proof. left. exists 1. repeat split; cbn; lia. Qed.
Example ex_invalid : attach_all Nat.eqb (ex_hist ++ [[3; 7; 3]]) = None.
Proof. apply (C45_invalid_partial nat Nat.eqb ex_hist [3; 7; 3] Nat.eqb_eq); [apply ex_hyps|vm_compute; lia|]. intros [_ H]. inversion H as [|? ? Hn _]; subst. apply Hn. right. now left. Qed.

Print Assumptions C45_cells_partial.
Print Assumptions C45_maximal_partial.
Print Assumptions C45_invalid_partial.
Print Assumptions C45_refuted.
Print Assumptions C46_entries_partial.
Print Assumptions C46_boundary_squared_partial.
Print Assumptions C46_homology_input_partial.
Print Assumptions C46_empty_refuted.
