(** Theorem C107: placing a subdivided graph in space. *)
From Coq Require Import String List Arith ZArith Bool Reals Lia Lra ZifyBool.
From Verif Require Import PidModel MatModel SnfModel NumModel ConstModel GraphModel GraphSpec LabGraphModel LabGraphSpec LabGraphProofs LabGraphProofs2 SubdivSpec SubdivProofs SubdivProofs2 SubdivProps EmbedModel EmbedSpec.
Import ListNotations.
Open Scope nat_scope.

Lemma hm_get_in {V} (m : list (string * V)) s v : NoDup (map fst m) -> (hm_get m s = Some v <-> In (s, v) m).
Proof.
  induction m as [|[k w] m IH]; cbn [hm_get map fst]; intros ND; [split; [discriminate|intros []]|]. apply NoDup_cons_iff in ND. destruct ND as [N ND]. destruct (String.eqb_spec k s) as [->|Hk].
  - split; [intros [= ->]; now left|]. intros [[= ->]|H]; [reflexivity|]. destruct N. now apply (in_map fst) in H.
  - rewrite IH by assumption. split; [now right|]. intros [[= -> _]|H]; [congruence|exact H].
Qed.
Lemma hm_get_some {V} (m : list (string * V)) s : In s (map fst m) -> exists v, hm_get m s = Some v.
Proof. induction m as [|[k w] m IH]; [intros []|]. cbn. intros H. destruct (String.eqb_spec k s); [eauto|]. apply IH. destruct H; [congruence|assumption]. Qed.
Lemma hm_get_none {V} (m : list (string * V)) s : ~ In s (map fst m) -> hm_get m s = None.
Proof. induction m as [|[k w] m IH]; [reflexivity|]. cbn. intros H. destruct (String.eqb_spec k s); [exfalso; auto|]. apply IH. auto. Qed.

Lemma segment_eq a b r : length a = length b -> cv_add a (cv_mul (cv_sub b a) r) = on_segment a b r.
Proof.
  unfold cv_add, cv_mul, cv_sub. revert b. induction a as [|x a IH]; intros [|y b] H; cbn in *; try discriminate; [reflexivity|]. injection H as H. specialize (IH b H).
  destruct (zip_mut Rminus b a) as [d rest] eqn:E1. cbn [fst map] in *. destruct (zip_mut Rplus a (map (fun z => (z * r)%R) d)) as [e rest2] eqn:E2. cbn [fst] in *. rewrite IH. f_equal. ring.
Qed.

(** What the loop does on distinct vertices. *)
Lemma embed_loop emb l : forall out, (forall v, In v l -> exists p, place emb v = Some p) -> (forall u v, In u (map fst out ++ l) -> In v (map fst out ++ l) -> svertex_eqb u v = true -> u = v) -> NoDup (map fst out ++ l) ->
  exists r, foldM (fun out v => do p <- place emb v; Some (hm_insert out v p)) l out = Some r /\ map fst r = map fst out ++ l /\
    forall u p, In (u, p) r <-> In (u, p) out \/ In u l /\ place emb u = Some p.
Proof.
  induction l as [|v l IH]; intros out HP HE ND; cbn [foldM].
  - exists out. split; [reflexivity|]. split; [now rewrite app_nil_r|]. intros u p. cbn. tauto.
  - destruct (HP v (or_introl eq_refl)) as (p & Ep). rewrite Ep. cbn [obind].
    assert (HI : hm_insert out v p = out ++ [(v, p)]).
    { unfold hm_insert. f_equal. assert (K : forall e, In e out -> svertex_eqb (fst e) v = false). { intros e He. destruct (svertex_eqb (fst e) v) eqn:E; [|reflexivity]. exfalso. apply HE in E; [|apply in_app_iff; left; now apply in_map|apply in_app_iff; right; now left]. apply NoDup_remove_2 in ND. apply ND, in_app_iff. left. rewrite <- E. now apply in_map. }
      clear -K. induction out as [|e out IH]; [reflexivity|]. cbn [filter]. rewrite K by (now left). cbn [negb]. f_equal. apply IH. intros; apply K; now right. }
    rewrite HI. assert (EM : map fst (out ++ [(v, p)]) ++ l = map fst out ++ v :: l) by (rewrite map_app; cbn; now rewrite <- app_assoc).
    destruct (IH (out ++ [(v, p)])) as (r & Er & Mr & Hr).
    + intros w Hw. apply HP. now right.
    + intros a b. rewrite EM. apply HE.
    + now rewrite EM.
    + exists r. split; [exact Er|]. split; [now rewrite Mr, EM|]. intros u q. rewrite Hr, in_app_iff. cbn [In]. split.
      * intros [[H|[H|[]]]|[H1 H2]]; [now left|injection H as <- <-; right; split; [now left|exact Ep]|right; split; [now right|exact H2]].
      * intros [H|[[<-|H1] H2]]; [left; now left|left; right; left; congruence|right; auto].
Qed.

Lemma svertex_eqb_vertex es m u v : 2 <= m -> is_vertex es m u -> is_vertex es m v -> svertex_eqb u v = true -> u = v.
Proof.
  intros Hm [s Hs|s t k l Hn Hk Hl] [s' Hs'|s' t' k' l' Hn' Hk' Hl'] E; cbn in E; try discriminate.
  - apply String.eqb_eq in E. now subst.
  - apply andb_prop in E. destruct E as [E E4]. apply andb_prop in E. destruct E as [E E3]. apply andb_prop in E. destruct E as [E1 E2]. apply String.eqb_eq in E1, E2. subst s' t'. assert (k' = k) by lia. subst k'. apply Nat.eqb_eq in E4.
    assert (0 < denom m s t) by (unfold denom; destruct (String.eqb s t); lia). assert (l = l') by nia. now subst.
Qed.

(** Every vertex of the subdivided graph is placed, once: the labels where the embedding has them, and the [l]-th inner vertex of an edge
    from [s] to [t] on the segment between them, in the ratio [l] to [denom]. *)
Theorem C107_positions : forall es gr marked sg N emb, graph_from es = Some gr -> subdivided_graph_from gr marked = Some sg -> embeds (mentions es) N emb ->
  let m := Nat.max marked 2 in
  exists out, modify_embedding sg emb = Some out /\ NoDup (map fst out) /\ (forall u, In u (map fst out) <-> is_vertex es m u) /\
    (forall s p, placed out (Essential s) p <-> In (s, p) emb) /\
    forall s t k l a b, is_vertex es m (inner_vertex m s t k l) -> In (s, a) emb -> In (t, b) emb ->
      forall p, placed out (inner_vertex m s t k l) p <-> p = on_segment a b (INR l / INR (denom m s t)).
Proof.
  intros es gr marked sg N emb E1 E2 (ND & HK & HN) m. assert (Hm : 2 <= m) by lia. destruct (C66_subdivision es gr marked sg E1 E2) as ((DL & VL & _) & HEss & _). cbn zeta in *. fold m in VL.
  assert (HLen : sg_ess sg = List.length emb).
  { rewrite HEss. destruct (gr_fields es gr E1) as (F1 & _). unfold lg_n_vertices. rewrite <- (map_length fst emb). apply Nat.le_antisymm.
    - apply NoDup_incl_length; [rewrite F1; apply registered_NoDup|]. intros s Hs. apply HK. rewrite F1 in Hs. now apply registered_in.
    - apply NoDup_incl_length; [exact ND|]. intros s Hs. rewrite F1. apply registered_in. now apply HK. }
  assert (HI : forall es0 s t, not_after es0 s t -> mentions es0 s /\ mentions es0 t). { intros es0 s t (i & j & _ & A & B). split; apply registered_in; eapply nth_error_In; eassumption. }
  assert (HP : forall v, In v (sg_list sg) -> exists p, place emb v = Some p).
  { intros v Hv. apply VL in Hv. destruct Hv as [s Hs|s t k l Hn Hk Hl]; cbn [place inner_vertex].
    - apply hm_get_some. now apply HK.
    - destruct (HI _ _ _ Hn) as [A B]. apply HK in A, B. apply hm_get_some in A, B. destruct A as (a & ->), B as (b & ->). cbn [obind]. eauto. }
  unfold modify_embedding. rewrite HLen, Nat.eqb_refl. destruct (embed_loop emb (sg_list sg) [] HP) as (out & EO & MO & HO).
  { cbn [map app]. intros u v Hu Hv. apply (svertex_eqb_vertex es m); [exact Hm|now apply VL|now apply VL]. }
  { exact DL. }
  exists out. cbn [map app] in MO. split; [exact EO|]. rewrite MO. split; [exact DL|]. split; [exact VL|]. split.
  - intros s p. unfold placed. rewrite HO, VL. cbn [In place]. rewrite (hm_get_in emb s p ND). split; [tauto|]. intros H. right. split; [|exact H]. constructor. apply HK. now apply (in_map fst) in H.
  - intros s t k l a b HV Ha Hb p. unfold placed. rewrite HO, VL. cbn [In place inner_vertex]. apply (hm_get_in emb _ _ ND) in Ha as Ga. apply (hm_get_in emb _ _ ND) in Hb as Gb. rewrite Ga, Gb. cbn [obind].
    rewrite segment_eq by (rewrite (HN _ _ Ha), (HN _ _ Hb); reflexivity). unfold ratio. split; [intros [[]|[_ [= <-]]]; reflexivity|]. intros ->. right. split; [exact HV|reflexivity].
Qed.
Print Assumptions C107_positions.

(** It panics exactly when the labels of the embedding are not those of the graph. *)
Theorem C107_panics : forall es gr marked sg emb, graph_from es = Some gr -> subdivided_graph_from gr marked = Some sg -> NoDup (map fst emb) ->
  (modify_embedding sg emb = None <-> ~ forall s, In s (map fst emb) <-> mentions es s).
Proof.
  intros es gr marked sg emb E1 E2 ND. destruct (C66_subdivision es gr marked sg E1 E2) as ((DL & VL & _) & HEss & _). cbn zeta in *. set (m := Nat.max marked 2) in *. assert (Hm : 2 <= m) by lia. destruct (gr_fields es gr E1) as (F1 & _).
  assert (HLab : forall s, In s (lg_labels gr) <-> mentions es s) by (intros s; rewrite F1; apply registered_in).
  assert (NDL : NoDup (lg_labels gr)) by (rewrite F1; apply registered_NoDup).
  unfold modify_embedding. rewrite HEss. unfold lg_n_vertices. destruct (Nat.eqb_spec (List.length (lg_labels gr)) (List.length emb)) as [HL|HL].
  - destruct (forallb (fun s => if in_dec string_dec s (map fst emb) then true else false) (lg_labels gr)) eqn:FB.
    + rewrite forallb_forall in FB. assert (IN : incl (lg_labels gr) (map fst emb)) by (intros s Hs; specialize (FB s Hs); destruct (in_dec _ s _); [assumption|discriminate]).
      assert (IN2 : incl (map fst emb) (lg_labels gr)) by (apply NoDup_length_incl; [exact NDL|rewrite map_length; lia|exact IN]).
      assert (ALL : forall s, In s (map fst emb) <-> mentions es s) by (intros s; rewrite <- HLab; split; [apply IN2|apply IN]). split; [|contradiction]. intros EN. exfalso.
      destruct (embed_loop emb (sg_list sg) []) as (out & EO & _); [|intros u v Hu Hv; apply (svertex_eqb_vertex es m); [exact Hm|now apply VL|now apply VL]|exact DL|congruence].
      intros v Hv. apply VL in Hv. destruct Hv as [s Hs|s t k l (i & j & _ & A & B) Hk Hl]; cbn [place inner_vertex].
      * apply hm_get_some. now apply ALL.
      * rewrite <- F1 in A, B. apply nth_error_In, IN, hm_get_some in A. apply nth_error_In, IN, hm_get_some in B. destruct A as (a & ->), B as (b & ->). cbn [obind]. eauto.
    + split; [|]. 2:{ intros _. assert (X : exists s, In s (lg_labels gr) /\ ~ In s (map fst emb)).
        { clear -FB. induction (lg_labels gr) as [|s l IH]; [discriminate|]. cbn in FB. destruct (in_dec string_dec s (map fst emb)); [|exists s; split; [now left|assumption]]. destruct IH as (x & A & B); [exact FB|]. exists x. split; [now right|exact B]. }
        destruct X as (s & Hs & Ns). assert (HV : In (Essential s) (sg_list sg)) by (apply VL; constructor; now apply HLab).
        assert (PN : place emb (Essential s) = None) by (cbn; now apply hm_get_none). clear -HV PN. revert HV. generalize (@nil (svertex * list R)). induction (sg_list sg) as [|v l IH]; intros out []; cbn [foldM].
        - subst v. rewrite PN. reflexivity.
        - destruct (place emb v); cbn [obind]; [now apply IH|reflexivity]. }
      intros _ ALL. assert (T : forallb (fun s => if in_dec string_dec s (map fst emb) then true else false) (lg_labels gr) = true); [|congruence]. apply forallb_forall. intros s Hs. destruct (in_dec _ s _) as [|N]; [reflexivity|]. destruct N. now apply ALL, HLab.
  - split; [|reflexivity]. intros _ ALL. apply HL. rewrite <- (map_length fst emb). apply Nat.le_antisymm; apply NoDup_incl_length; try assumption; intros s Hs; [now apply ALL, HLab|now apply HLab, ALL].
Qed.
Print Assumptions C107_panics.

Lemma on_segment_inj a b r r' : length a = length b -> a <> b -> on_segment a b r = on_segment a b r' -> r = r'.
Proof.
  revert b. induction a as [|x a IH]; intros [|y b] HL N E; cbn in *; try discriminate; [congruence|]. injection E as E1 E2. destruct (Req_dec x y) as [->|Nxy].
  - apply (IH b); [lia|congruence|exact E2].
  - assert (K : ((r - r') * (y - x) = 0)%R) by lra. apply Rmult_integral in K. destruct K; lra.
Qed.
Lemma on_segment_0 a b : length a = length b -> on_segment a b 0 = a.
Proof. revert b. induction a as [|x a IH]; intros [|y b] HL; cbn in *; try discriminate; [reflexivity|]. rewrite IH by lia. f_equal. lra. Qed.
Lemma on_segment_1 a b : length a = length b -> on_segment a b 1 = b.
Proof. revert b. induction a as [|x a IH]; intros [|y b] HL; cbn in *; try discriminate; [reflexivity|]. rewrite IH by lia. f_equal. lra. Qed.
Lemma on_segment_same a r : on_segment a a r = a.
Proof. induction a as [|x a IH]; cbn; [reflexivity|]. rewrite IH. f_equal. lra. Qed.

(** For three or more marked points and two labels at different places, the inner vertices of an edge are inside the segment and are all at
    different places. *)
Theorem C107_distinct_partial : forall es gr marked sg N emb out s t k l a b p, graph_from es = Some gr -> subdivided_graph_from gr marked = Some sg -> embeds (mentions es) N emb ->
  modify_embedding sg emb = Some out -> 3 <= marked -> s <> t -> is_vertex es marked (inner_vertex marked s t k l) -> In (s, a) emb -> In (t, b) emb -> a <> b ->
  placed out (inner_vertex marked s t k l) p ->
  (exists r, (0 < r < 1)%R /\ p = on_segment a b r) /\ p <> a /\ p <> b /\
  forall l' p', placed out (inner_vertex marked s t k l') p' -> l' <> l -> p' <> p.
Proof.
  intros es gr marked sg N emb out s t k l a b p E1 E2 HE EO Hm Nst HV Ha Hb Nab Hp. destruct (C107_positions es gr marked sg N emb E1 E2 HE) as (out' & EO' & _ & HVO & _ & HP). rewrite EO in EO'. injection EO' as <-. cbn zeta in *. replace (Nat.max marked 2) with marked in * by lia.
  assert (HL : length a = length b) by (destruct HE as (_ & _ & HN); rewrite (HN _ _ Ha), (HN _ _ Hb); reflexivity).
  assert (RNG : forall l, is_vertex es marked (inner_vertex marked s t k l) -> 1 <= l <= marked - 2). { intros l0 H0. inversion H0 as [|s0 t0 k0 l1 _ _ Hl E]; subst. unfold inner in Hl. destruct (String.eqb_spec s t); [contradiction|]. lia. }
  assert (DN : denom marked s t = marked - 1) by (unfold denom; destruct (String.eqb_spec s t); [contradiction|reflexivity]).
  pose proof (RNG l HV) as Hl. rewrite (HP s t k l a b HV Ha Hb) in Hp. rewrite DN in *.
  assert (RI : forall l, 1 <= l <= marked - 2 -> (0 < INR l / INR (marked - 1) < 1)%R).
  { intros l0 H0. assert (0 < INR (marked - 1))%R by (apply lt_0_INR; lia). split; [apply Rdiv_lt_0_compat; [apply lt_0_INR; lia|assumption]|]. apply (Rmult_lt_reg_r (INR (marked - 1))); [assumption|]. unfold Rdiv. rewrite Rmult_assoc, Rinv_l, Rmult_1_r, Rmult_1_l by lra. apply lt_INR. lia. }
  pose proof (RI l Hl) as Hr. split; [eauto|]. split; [|split].
  - intros ->. rewrite <- (on_segment_0 a b HL) in Hp at 1. apply on_segment_inj in Hp; [lra|exact HL|exact Nab].
  - intros ->. rewrite <- (on_segment_1 a b HL) in Hp at 1. apply on_segment_inj in Hp; [lra|exact HL|exact Nab].
  - intros l' p' Hp' Nl EP. assert (HV' : is_vertex es marked (inner_vertex marked s t k l')) by (apply HVO; now apply (in_map fst) in Hp'). rewrite (HP s t k l' a b HV' Ha Hb), DN in Hp'. rewrite Hp, Hp' in EP. apply on_segment_inj in EP; [|exact HL|exact Nab].
    assert (0 < INR (marked - 1))%R by (apply lt_0_INR; lia). apply Nl, INR_eq. apply (Rmult_eq_reg_r (/ INR (marked - 1))); [exact EP|]. apply Rinv_neq_0_compat. lra.
Qed.
Print Assumptions C107_distinct_partial.
(** For fewer marked points it is false: the inner vertex of an edge is put on the second end of the edge. *)
Theorem C107_refuted_two : forall es gr marked sg N emb out s t k b, graph_from es = Some gr -> subdivided_graph_from gr marked = Some sg -> embeds (mentions es) N emb ->
  modify_embedding sg emb = Some out -> marked <= 2 -> s <> t -> not_after es s t -> k < mult es s t -> In (t, b) emb ->
  placed out (inner_vertex 2 s t k 1) b /\ placed out (Essential t) b /\ inner_vertex 2 s t k 1 <> Essential t.
Proof.
  intros es gr marked sg N emb out s t k b E1 E2 HE EO Hm Nst Hn Hk Hb. destruct (C107_positions es gr marked sg N emb E1 E2 HE) as (out' & EO' & _ & HVO & HV & HP). rewrite EO in EO'. injection EO' as <-. cbn zeta in *. replace (Nat.max marked 2) with 2 in * by lia.
  assert (Ha : exists a, In (s, a) emb). { destruct HE as (_ & HK & _). assert (A : mentions es s) by (destruct Hn as (i & j & _ & A & _); apply registered_in; eapply nth_error_In; eassumption). apply HK, in_map_iff in A. destruct A as ([s' a] & <- & A). eauto. }
  destruct Ha as (a & Ha). assert (HL : length a = length b) by (destruct HE as (_ & _ & HN); rewrite (HN _ _ Ha), (HN _ _ Hb); reflexivity). split; [|split; [now apply HV|discriminate]].
  apply (HP s t k 1 a b); [|exact Ha|exact Hb|].
  - constructor; [exact Hn|exact Hk|]. unfold inner. destruct (String.eqb_spec s t); [contradiction|]. cbn. lia.
  - unfold denom. destruct (String.eqb_spec s t); [contradiction|]. cbn [Nat.sub INR]. unfold Rdiv. rewrite Rinv_1, Rmult_1_r. symmetry. now apply on_segment_1.
Qed.
Print Assumptions C107_refuted_two.
(** And all the inner vertices of a loop are put on its vertex. *)
Theorem C107_refuted_loop : forall es gr marked sg N emb out s k l a, graph_from es = Some gr -> subdivided_graph_from gr marked = Some sg -> embeds (mentions es) N emb ->
  modify_embedding sg emb = Some out -> is_vertex es (Nat.max marked 2) (inner_vertex (Nat.max marked 2) s s k l) -> In (s, a) emb ->
  placed out (inner_vertex (Nat.max marked 2) s s k l) a /\ placed out (Essential s) a.
Proof.
  intros es gr marked sg N emb out s k l a E1 E2 HE EO HV Ha. destruct (C107_positions es gr marked sg N emb E1 E2 HE) as (out' & EO' & _ & HVO & HVE & HP). rewrite EO in EO'. injection EO' as <-. cbn zeta in *.
  split; [|now apply HVE]. apply (HP s s k l a a HV Ha Ha). symmetry. apply on_segment_same.
Qed.
Print Assumptions C107_refuted_loop.

(** Hypotheses of the theorems: an edge and a loop; for three marked points the inner vertex of the edge lies halfway, for two it lies on the
    second end. *)
Example C107_nontrivial : exists gr g3 g2 o3 o2, graph_from [("a", "b"); ("b", "b")]%string = Some gr /\ subdivided_graph_from gr 3 = Some g3 /\ subdivided_graph_from gr 2 = Some g2 /\
  let emb := [("a", [0; 1]); ("b", [4; 3])]%string%R in
  embeds (mentions [("a", "b"); ("b", "b")]%string) 2 emb /\ modify_embedding g3 emb = Some o3 /\ modify_embedding g2 emb = Some o2 /\
  placed o3 (inner_vertex 3 "a" "b" 0 1) [2; 2]%R /\ placed o2 (inner_vertex 2 "a" "b" 0 1) [4; 3]%R /\ placed o3 (inner_vertex 3 "b" "b" 0 2) [4; 3]%R.
Proof.
  set (es := [("a", "b"); ("b", "b")]%string). set (emb := [("a", [0; 1]); ("b", [4; 3])]%string%R).
  assert (HE : embeds (mentions es) 2 emb).
  { split; [|split].
    - cbn. constructor; [cbn; intros [H|[]]; discriminate|]. constructor; [intros []|constructor].
    - intros s. cbn. split.
      + intros [<-|[<-|[]]]; [exists ("a", "b")%string|exists ("b", "b")%string]; cbn; auto.
      + intros (e & [<-|[<-|[]]] & [<-|<-]); cbn; auto.
    - intros s p [[= <- <-]|[[= <- <-]|[]]]; reflexivity. }
  destruct (graph_from es) as [gr|] eqn:E0; [|vm_compute in E0; discriminate E0]. destruct (subdivided_graph_from gr 3) as [g3|] eqn:E3; [|vm_compute in E0; injection E0 as <-; vm_compute in E3; discriminate E3].
  destruct (subdivided_graph_from gr 2) as [g2|] eqn:E2; [|vm_compute in E0; injection E0 as <-; vm_compute in E2; discriminate E2].
  destruct (C107_positions es gr 3 g3 2 emb E0 E3 HE) as (o3 & EO3 & _ & _ & _ & H3). destruct (C107_positions es gr 2 g2 2 emb E0 E2 HE) as (o2 & EO2 & _). cbn zeta in *. cbn [Nat.max] in *.
  assert (NA : not_after es "a" "b") by (exists 0, 1; repeat split; lia). assert (NB : not_after es "b" "b") by (exists 1, 1; repeat split; lia).
  exists gr, g3, g2, o3, o2. split; [reflexivity|]. split; [exact E3|]. split; [exact E2|]. split; [exact HE|]. split; [exact EO3|]. split; [exact EO2|]. split; [|split].
  - apply (H3 "a"%string "b"%string 0 1 [0; 1]%R [4; 3]%R); [constructor; [exact NA|vm_compute; lia|vm_compute; lia]|now left|right; now left|]. cbn. repeat f_equal; lra.
  - apply (C107_refuted_two es gr 2 g2 2 emb o2 "a" "b" 0 [4; 3]%R E0 E2 HE EO2); [lia|discriminate|exact NA|vm_compute; lia|right; now left].
  - apply (C107_refuted_loop es gr 3 g3 2 emb o3 "b" 0 2 [4; 3]%R E0 E3 HE EO3); [constructor; [exact NB|vm_compute; lia|vm_compute; lia]|right; now left].
Qed.
