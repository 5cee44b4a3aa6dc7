(** [udc], [get_index_of], [get_cell_from_idx]. *)
From Coq Require Import List Arith ZArith NArith Bool Lia ZifyBool ZifyNat ZifyN Permutation Sorted.
From Verif Require Import UtilModel PidModel MatModel MatSpec MatProofs GraphModel GraphSpec GraphProofs GraphProofs2 GraphProofs3 GraphProofs4 GraphProofs5 GraphProofs6 GraphProofs7 GraphProofs8 GraphProps SnfProofs2 LabGraphProofs2 SubdivProofs2 CubeModel CubeSpec CubeProofs CubeProofs2.
Import ListNotations.
Open Scope nat_scope.

Lemma inj_NoDup {A B} (f : A -> B) l : (forall x y, f x = f y -> x = y) -> NoDup l -> NoDup (map f l).
Proof. intros Hf. induction 1; cbn; constructor; [|assumption]. intros Hin. apply in_map_iff in Hin. destruct Hin as (y & Ey & Hy). apply Hf in Ey. congruence. Qed.
Lemma Forall2_nth {A B} (P : A -> B -> Prop) l l' : Forall2 P l l' -> forall k a, nth_error l k = Some a -> exists b, nth_error l' k = Some b /\ P a b.
Proof. induction 1 as [|x y l l' H F IH]; intros [|k] a E; cbn in *; try discriminate; [injection E as ->; eauto|eauto]. Qed.

Section Udc.
  Variable g : rawg.
  Variable fs : list factor.
  Hypothesis Hfs : factors g = Some fs.
  Notation N := (g_n g).
  Hypothesis fsN : forall f, In f fs -> match f with FVertex v => v < N | FEdge x y => x < y /\ y < N end.
  Variable r : nat.
  Hypothesis Hr : r <= N.
  Notation n := (S r).

  Definition udc_data (c : cplx) : Prop :=
    Inv g n c (all_branches N fs r) /\ c_first c = seq 0 (length (tops N fs r)) /\
    Forall2 (fun i f => tree g fs r (c_data c) (c_final c) (length (tops N fs r)) i [f]) (c_first c) (tops N fs r).

  Lemma udc_of_data : 2 <= N -> exists c, udc_of g n = Some c /\ udc_data c.
  Proof.
    intros HN. unfold udc_of. replace (N <? 2) with false by lia. unfold boundary_vertex. rewrite (proj2 (Nat.leb_le _ _)) by exact Hr. cbn [obind]. rewrite Hfs. cbn [obind].
    rewrite (filterM_filter _ (keepb N r)). 2: { intros f Hf. apply keeps_keepb. specialize (fsN f Hf). destruct f; lia. }
    cbn [obind]. rewrite map_length. fold (tops N fs r). set (T := tops N fs r). set (L0 := length T). set (data := map (fun f => Branch None [] f) T). set (c0 := Cplx _ _ _ _ _ _).
    assert (G : forall t2 t1 c1, T = t1 ++ t2 -> Inv g n c1 (flat_map (fun f => enum N fs r [f]) t1) -> c_first c1 = seq 0 L0 -> L0 <= length (c_data c1) ->
      (forall k, length t1 <= k < L0 -> nth_error (c_data c1) k = nth_error data k) ->
      Forall2 (fun i f => tree g fs r (c_data c1) (c_final c1) L0 i [f]) (seq 0 (length t1)) t1 ->
      exists c, foldM (fun c i => expand r c i) (seq (length t1) (length t2)) c1 = Some c /\ Inv g n c (flat_map (fun f => enum N fs r [f]) T) /\ c_first c = seq 0 L0 /\
        Forall2 (fun i f => tree g fs r (c_data c) (c_final c) L0 i [f]) (seq 0 (length T)) T).
    { induction t2 as [|f t2 IH]; intros t1 c1 ET HI F1 HL ND T1.
      - rewrite app_nil_r in ET. subst t1. exists c1. cbn. auto.
      - cbn [length seq foldM]. assert (HLt : length t1 < L0) by (unfold L0; rewrite ET, app_length; cbn; lia).
        assert (E1 : nth_error (c_data c1) (length t1) = Some (Branch None [] f)). { rewrite ND by lia. unfold data. rewrite nth_error_map, ET, nth_error_app2, Nat.sub_diag by lia. reflexivity. }
        assert (U1 : up (c_data c1) (length t1) [f]). { change f with (b_val (Branch None [] f)). apply up_root; [exact E1|reflexivity]. }
        destruct (expand_spec g fs Hfs fsN n ltac:(lia) r c1 (length t1) [f] _ _ HI U1 eq_refl E1 eq_refl) as (c2 & E2 & HI2 & F2 & A2 & C2 & T2). rewrite E2. cbn [obind].
        pose proof A2 as (A2a & A2b & A2c).
        assert (K : exists c, foldM (fun c i => expand r c i) (seq (length (t1 ++ [f])) (length t2)) c2 = Some c /\ Inv g n c (flat_map (fun f => enum N fs r [f]) T) /\ c_first c = seq 0 L0 /\
          Forall2 (fun i f => tree g fs r (c_data c) (c_final c) L0 i [f]) (seq 0 (length T)) T); [apply IH|rewrite app_length in K; cbn [length] in K; rewrite Nat.add_1_r in K; exact K].
        + rewrite <- app_assoc. exact ET.
        + rewrite flat_map_app. cbn [flat_map]. rewrite app_nil_r. exact HI2.
        + rewrite F2. exact F1.
        + lia.
        + rewrite app_length. cbn. intros k Hk. rewrite <- ND by lia. destruct (nth_error (c_data c1) k) as [b|] eqn:Ek; [apply A2b; [lia|exact Ek]|]. apply nth_error_None in Ek. lia.
        + rewrite app_length. cbn [length]. rewrite Nat.add_1_r, seq_S. apply Forall2_app.
          * clear - T1 A2 A2b A2a C2 HLt HL.
            assert (G : forall a l t, Forall2 (fun i f => tree g fs r (c_data c1) (c_final c1) L0 i [f]) (seq a l) t -> a + l <= length t1 -> Forall2 (fun i f => tree g fs r (c_data c2) (c_final c2) L0 i [f]) (seq a l) t).
            { intros a l. revert a. induction l as [|l IHl]; cbn [seq]; intros a t H Hl; inversion H as [|? f' ? t' H1 H2]; subst; constructor; [|apply IHl; [assumption|lia]].
              apply (tree_mono g fs r (c_data c1) _ (c_final c1)); [|intros k q Hq; now apply (agree_up (length t1) (c_data c1))|exact C2|exact H1]. intros k b' Hk Ek. apply A2b; [lia|exact Ek]. }
            apply G; [exact T1|lia].
          * constructor; [|constructor]. apply (tree_weaken g fs r _ _ (length (c_data c1))); [lia|exact T2]. }
    destruct (G T [] c0) as (c & E & HI & F & TR).
    - reflexivity.
    - constructor; cbn; [reflexivity|constructor| |reflexivity]. assert (K : forall m a, map (fun _ : nat => count 0 []) (seq a m) = repeat 0 m) by (induction m as [|m IHm]; intros a; cbn; [reflexivity|now rewrite IHm]). exact (eq_sym (K (S (r + 1)) 0)).
    - reflexivity.
    - cbn. unfold data. now rewrite map_length.
    - intros k Hk. reflexivity.
    - constructor.
    - exists c. split; [exact E|]. split; [exact HI|]. split; [exact F|]. rewrite F. exact TR.
  Qed.

  (** Looking a cell up. *)
  Hypothesis fsND : NoDup fs.
  Lemma next_NoDup k p : NoDup (next N fs k p).
  Proof. unfold next. now apply NoDup_filter, NoDup_filter, NoDup_filter. Qed.
  Lemma find_branch_spec d F L k p f is xs : Forall2 (fun j x => L <= j /\ tree g fs k d F L j (x :: p)) is xs ->
    (In f xs -> exists j, find_branch d f is = Some (Some j) /\ tree g fs k d F L j (f :: p)) /\ (~ In f xs -> find_branch d f is = Some None).
  Proof.
    induction 1 as [|j x is xs [Hj Tj] H [IH1 IH2]]; cbn; [split; [intros []|reflexivity]|].
    assert (Hb : exists b, nth_error d j = Some b /\ b_val b = x). { assert (T' := Tj). destruct k; destruct T' as (b & E & U & _); exists b; (split; [exact E|]); destruct (up_val _ _ _ U) as (b' & E' & V); cbn in V; congruence. }
    destruct Hb as (b & E & V). rewrite E. cbn [obind]. rewrite V. destruct (f_eqb x f) eqn:Ef.
    - apply f_eqb_eq in Ef. rewrite Ef in *. split; [intros _; exists j; split; [reflexivity|exact Tj]|]. intros HN. exfalso. apply HN. now left.
    - assert (x <> f) by (intros ->; rewrite f_eqb_refl in Ef; discriminate). split; [intros [?|Hin]; [contradiction|now apply IH1]|]. intros HN. apply IH2. intros Hin. apply HN. now right.
  Qed.
  Lemma walk_down_spec d F L k : forall i p l, tree g fs k d F L i p -> length l = k ->
    (In (rev l ++ p) (enum N fs k p) -> exists j, walk_down d i l = Some (Some j) /\ up d j (rev l ++ p) /\ In j F) /\
    (~ In (rev l ++ p) (enum N fs k p) -> walk_down d i l = Some None).
  Proof.
    induction k as [|k IH]; intros i p l T Hl.
    - destruct l; [|discriminate]. destruct T as (b & E & U & HF). cbn. split; [intros _; eauto|]. intros HN. exfalso. apply HN. now left.
    - destruct l as [|f l]; [discriminate|]. destruct T as (b & E & U & HF). cbn [walk_down rev]. rewrite <- app_assoc. cbn [app]. rewrite E. cbn [obind].
      destruct (find_branch_spec d F L k p f _ _ HF) as [B1 B2]. cbn [enum].
      assert (K : In (rev l ++ f :: p) (flat_map (fun f0 => enum N fs k (f0 :: p)) (next N fs k p)) <-> In f (next N fs k p) /\ In (rev l ++ f :: p) (enum N fs k (f :: p))).
      { rewrite in_flat_map. split; [|intros [A B]; eauto]. intros (f' & A & B). pose proof (enum_shape _ _ _ _ _ B) as (l' & L' & E'). apply app_inj_len in E'; [|rewrite rev_length; cbn in Hl; lia]. destruct E' as [_ E']. injection E' as ->. auto. }
      destruct (in_dec f_dec f (next N fs k p)) as [Hin|Hout].
      + destruct (B1 Hin) as (j & -> & Tj). cbn [obind]. destruct (IH j (f :: p) l Tj ltac:(cbn in Hl; lia)) as [C1 C2]. split; intros H; [apply C1, K, H|apply C2; intros H2; apply H, K; auto].
      + rewrite (B2 Hout). cbn [obind]. split; [intros H; apply K in H; tauto|reflexivity].
  Qed.
  Lemma get_index_spec c l : udc_data c -> length l = n ->
    (In (rev l) (all_branches N fs r) -> exists j, get_index_of c l = Some (Some j) /\ up (c_data c) j (rev l) /\ In j (c_final c)) /\
    (~ In (rev l) (all_branches N fs r) -> get_index_of c l = Some None).
  Proof.
    intros (HI & HF & HT) Hl. destruct l as [|f l]; [discriminate|]. cbn [length] in Hl. cbn [get_index_of rev].
    set (L := length (tops N fs r)) in *.
    assert (B : (In f (tops N fs r) -> exists j, find_branch (c_data c) f (c_first c) = Some (Some j) /\ tree g fs r (c_data c) (c_final c) L j [f]) /\ (~ In f (tops N fs r) -> find_branch (c_data c) f (c_first c) = Some None)).
    { clearbody L. clear HF HI. induction HT as [|j x is xs Tj H [IH1 IH2]]; cbn; [split; [intros []|reflexivity]|].
      assert (Hb : exists b, nth_error (c_data c) j = Some b /\ b_val b = x). { assert (T' := Tj). destruct r; destruct T' as (b & E & U & _); exists b; (split; [exact E|]); destruct (up_val _ _ _ U) as (b' & E' & V); cbn in V; congruence. }
      destruct Hb as (b & E & V). rewrite E. cbn [obind]. rewrite V. destruct (f_eqb x f) eqn:Ef.
      - apply f_eqb_eq in Ef. rewrite Ef in *. split; [intros _; exists j; split; [reflexivity|exact Tj]|]. intros HN. exfalso. apply HN. now left.
      - assert (x <> f) by (intros ->; rewrite f_eqb_refl in Ef; discriminate). split; [intros [?|Hin]; [contradiction|now apply IH1]|]. intros HN. apply IH2. intros Hin. apply HN. now right. }
    destruct B as [B1 B2].
    assert (K : In (rev l ++ [f]) (all_branches N fs r) <-> In f (tops N fs r) /\ In (rev l ++ [f]) (enum N fs r [f])).
    { unfold all_branches. rewrite in_flat_map. split; [|intros [A B]; eauto]. intros (f' & A & B). pose proof (enum_shape _ _ _ _ _ B) as (l' & L' & E'). apply app_inj_len in E'; [|rewrite rev_length; lia]. destruct E' as [_ E']. injection E' as ->. auto. }
    destruct (in_dec f_dec f (tops N fs r)) as [Hin|Hout].
    - destruct (B1 Hin) as (j & -> & Tj). cbn [obind]. destruct (walk_down_spec _ _ _ r j [f] l Tj ltac:(lia)) as [C1 C2]. split; intros H; [apply C1, K, H|apply C2; intros H2; apply H, K; auto].
    - rewrite (B2 Hout). cbn [obind]. split; [intros H; apply K in H; tauto|reflexivity].
  Qed.
  Lemma all_NoDup : NoDup (all_branches N fs r).
  Proof.
    unfold all_branches. apply NoDup_flat_map; [now apply NoDup_filter|intros; now apply enum_NoDup|]. intros a b q _ _ Qa Qb. apply enum_shape in Qa, Qb. destruct Qa as (l & L & ->), Qb as (l' & L' & E).
    apply app_inj_len in E; [|congruence]. destruct E as [_ E]. congruence.
  Qed.
  Lemma final_NoDup c : udc_data c -> NoDup (c_final c).
  Proof.
    intros (HI & _). apply NoDup_nth_error. intros a b Ha E. pose proof (I_final _ _ _ _ HI) as F. pose proof all_NoDup as ND.
    destruct (nth_error (c_final c) a) as [i|] eqn:Ea; [|apply nth_error_Some in Ha; congruence]. symmetry in E.
    destruct (Forall2_nth _ _ _ F a i Ea) as (q & Eq & Hq). destruct (Forall2_nth _ _ _ F b i E) as (q' & Eq' & Hq'). rewrite (up_fun _ _ _ _ Hq' Hq) in Eq'.
    apply (proj1 (NoDup_nth_error _) ND); [apply nth_error_Some; congruence|congruence].
  Qed.
  (** Two complete branches with the same factors are the same. *)
  Lemma final_inj c i j p : udc_data c -> In i (c_final c) -> In j (c_final c) -> up (c_data c) i p -> up (c_data c) j p -> i = j.
  Proof.
    intros (HI & _) Hi Hj Ui Uj. pose proof (I_final _ _ _ _ HI) as F. pose proof all_NoDup as ND.
    apply In_nth_error in Hi, Hj. destruct Hi as (a & Ea), Hj as (b & Eb). destruct (Forall2_nth _ _ _ F a i Ea) as (q & Eq & Hq). destruct (Forall2_nth _ _ _ F b j Eb) as (q' & Eq' & Hq').
    rewrite (up_fun _ _ _ _ Hq Ui) in Eq. rewrite (up_fun _ _ _ _ Hq' Uj) in Eq'. assert (a = b). { apply (proj1 (NoDup_nth_error _) ND); [apply nth_error_Some; congruence|congruence]. } subst b. congruence.
  Qed.
  Lemma get_cell_spec c i : udc_data c -> (In i (c_final c) -> exists p, up (c_data c) i p /\ In p (all_branches N fs r) /\ get_cell_from_idx c i = Some (Some (rev p))) /\ (~ In i (c_final c) -> get_cell_from_idx c i = Some None).
  Proof.
    intros (HI & _). pose proof (I_final _ _ _ _ HI) as F. unfold get_cell_from_idx. split.
    - intros H. replace (existsb (Nat.eqb i) (c_final c)) with true. 2: { symmetry. apply existsb_exists. exists i. split; [exact H|apply Nat.eqb_refl]. }
      apply In_nth_error in H. destruct H as (k & Ek). destruct (Forall2_nth _ _ _ F k i Ek) as (p & Ep & Hp). exists p. split; [exact Hp|]. split; [eapply nth_error_In; exact Ep|]. now rewrite (factor_iter_up _ _ _ Hp).
    - intros H. replace (existsb (Nat.eqb i) (c_final c)) with false; [reflexivity|]. symmetry. apply not_true_iff_false. intros K. apply existsb_exists in K. destruct K as (x & Hx & E). apply Nat.eqb_eq in E. subst x. contradiction.
  Qed.
End Udc.

(** The factors of a graph. *)
Lemma factors_spec g : GI g -> 2 <= g_n g -> exists fs, factors g = Some fs /\ NoDup fs /\
  (forall f, In f fs <-> closed_cell g f \/ f = FEdge 0 1) /\ (forall f, In f fs -> match f with FVertex v => v < g_n g | FEdge x y => x < y /\ y < g_n g end).
Proof.
  intros HG Hn. destruct (edge_iter_spec g HG Hn) as (l & E & ND & HI). unfold factors. rewrite E. cbn [obind]. eexists. split; [reflexivity|].
  assert (K : forall f, In f (map FVertex (seq 0 (g_n g)) ++ map (fun e => FEdge (fst e) (snd e)) ((0, 1) :: l)) <-> closed_cell g f \/ f = FEdge 0 1).
  { intros f. rewrite in_app_iff, !in_map_iff. destruct f as [x y|v]; cbn [closed_cell].
    - split.
      + intros [(? & ? & _)|([a b] & [= <- <-] & H)]; [discriminate|]. cbn [fst snd]. destruct H as [[= <- <-]|H]; [now right|]. left. apply HI in H. tauto.
      + intros H. right. exists (x, y). split; [reflexivity|]. destruct H as [[H1 H2]|[= -> ->]]; [|now left]. destruct (edge_lt g x y HG H2) as (_ & K2 & _). destruct (Nat.eq_dec x 0) as [E0|E0]; [destruct (Nat.eq_dec y 1) as [E1|E1]; [left; congruence|]|]; right; apply HI; repeat split; auto; congruence.
    - unfold g_n_vertices. split.
      + intros [(x & [= ->] & H)|([a b] & ? & H)]; [|discriminate]. apply in_seq in H. left. lia.
      + intros [H|H]; [|discriminate]. left. exists v. split; [reflexivity|]. apply in_seq. lia. }
  split; [|split; [exact K|]].
  - apply LabGraphProofs2.NoDup_app_disj.
    + apply inj_NoDup; [intros x y [= H]; exact H|apply seq_NoDup].
    + apply inj_NoDup; [intros [a b] [c d] [= H1 H2]; congruence|]. constructor; [|exact ND]. intros H. apply HI in H. destruct H as (_ & _ & _ & H). congruence.
    + intros x H1 H2. apply in_map_iff in H1, H2. destruct H1 as (? & <- & _), H2 as (? & ? & _). discriminate.
  - intros f Hf. apply K in Hf. destruct f as [x y|v]; cbn in Hf.
    + destruct Hf as [[H1 H2]|[= -> ->]]; [|lia]. split; [exact H1|]. now apply (edge_lt g x y HG).
    + destruct Hf as [H|H]; [exact H|discriminate].
Qed.
