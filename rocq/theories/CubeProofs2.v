(** [expand] and [udc]. *)
From Coq Require Import List Arith ZArith NArith Bool Lia ZifyBool ZifyNat ZifyN Permutation Sorted.
From Verif Require Import PidModel MatModel MatSpec MatProofs GraphModel GraphSpec SnfProofs2 SubdivProofs2 CubeModel CubeSpec CubeProofs.
Import ListNotations.
Open Scope nat_scope.

Lemma Forall2_impl {A B} (P Q : A -> B -> Prop) l l' : (forall a b, P a b -> Q a b) -> Forall2 P l l' -> Forall2 Q l l'.
Proof. induction 2; constructor; auto. Qed.
Lemma lset_nth_error {A} (l : list A) i x k : nth_error (lset l i x) k = if k =? i then (if i <? length l then Some x else None) else nth_error l k.
Proof.
  revert i k. induction l as [|a l IH]; intros i k; cbn [lset].
  - cbn [length]. replace (i <? 0) with false by lia. rewrite (proj2 (nth_error_None [] k)) by (cbn; lia). now destruct (k =? i).
  - destruct i as [|i], k as [|k]; cbn [nth_error length]; [reflexivity|reflexivity|reflexivity|]. rewrite IH. replace (S k =? S i) with (k =? i) by lia. now replace (S i <? S (length l)) with (i <? length l) by lia.
Qed.
Lemma nth_error_ext {A} (l l' : list A) : (forall k, nth_error l k = nth_error l' k) -> l = l'.
Proof. revert l'. induction l as [|a l IH]; intros [|b l'] H; [reflexivity|discriminate (H 0)|discriminate (H 0)|]. pose proof (H 0) as H0. injection H0 as ->. f_equal. apply IH. intros k. exact (H (S k)). Qed.
(** Branch [i] reads [p], the last factor first. *)
Inductive up (d : list branch) : nat -> list factor -> Prop :=
| up_root i b : nth_error d i = Some b -> b_parent b = None -> up d i [b_val b]
| up_step i j b p : nth_error d i = Some b -> b_parent b = Some j -> j < i -> up d j p -> up d i (b_val b :: p).

Lemma up_lt d i p : up d i p -> i < length d.
Proof. destruct 1; apply nth_error_Some; congruence. Qed.
Lemma up_nonnil d i p : up d i p -> p <> [].
Proof. destruct 1; discriminate. Qed.
Lemma up_fun d i p q : up d i p -> up d i q -> p = q.
Proof.
  intros H. revert q. induction H as [i b E Ep|i j b p E Ep Hj H IH]; intros q Hq; inversion Hq as [? b' E' Ep'|? j' b' p' E' Ep' Hj' H']; subst; try congruence.
  assert (b' = b) by congruence. subst b'. assert (j' = j) by congruence. subst j'. f_equal. now apply IH.
Qed.
Lemma up_val d i p : up d i p -> exists b, nth_error d i = Some b /\ b_val b = hd (FVertex 0) p.
Proof. destruct 1; eauto. Qed.
Lemma up_factors d i p k : up d i p -> i < k -> factors_up k d i = Some p.
Proof.
  intros H. revert k. induction H as [i b E Ep|i j b p E Ep Hj H IH]; intros [|k] Hk; try lia; cbn; rewrite E; cbn; rewrite Ep; [reflexivity|]. rewrite IH by lia. reflexivity.
Qed.
Lemma up_dim d i p k : up d i p -> i < k -> dim_up k d i = Some (dimension p).
Proof.
  intros H. revert k. induction H as [i b E Ep|i j b p E Ep Hj H IH]; intros [|k] Hk; try lia; cbn; rewrite E; cbn; rewrite Ep.
  - f_equal. unfold dimension. destruct (b_val b); reflexivity.
  - rewrite IH by lia. cbn. f_equal. unfold dimension. cbn. destruct (b_val b); reflexivity.
Qed.
Lemma factor_iter_up c i p : up (c_data c) i p -> factor_iter c i = Some p.
Proof. intros H. apply up_factors; [exact H|]. apply up_lt in H. lia. Qed.
Lemma dim_of_up c i p : up (c_data c) i p -> dim_of c i = Some (dimension p).
Proof. intros H. apply up_dim; [exact H|]. apply up_lt in H. lia. Qed.

(** [d'] extends [d]; only the children of branch [i] may have changed. *)
Definition agree (i : nat) (d d' : list branch) : Prop :=
  length d <= length d' /\ (forall k b, k <> i -> nth_error d k = Some b -> nth_error d' k = Some b) /\
  (forall b, nth_error d i = Some b -> exists ch, nth_error d' i = Some (Branch (b_parent b) ch (b_val b))).
Lemma agree_refl i d : agree i d d.
Proof. split; [lia|]. split; [auto|]. intros [p ch v] E. eauto. Qed.
Lemma agree_up i d d' k p : agree i d d' -> up d k p -> up d' k p.
Proof.
  intros (_ & A & B). induction 1 as [k b E Ep|k j b p E Ep Hj H IH].
  - destruct (Nat.eq_dec k i) as [->|Hk]; [|apply up_root; auto]. destruct (B b E) as (ch & E'). change (b_val b) with (b_val (Branch (b_parent b) ch (b_val b))). now apply up_root.
  - destruct (Nat.eq_dec k i) as [->|Hk]; [|apply (up_step _ _ j); auto]. destruct (B b E) as (ch & E'). change (b_val b) with (b_val (Branch (b_parent b) ch (b_val b))). now apply (up_step _ _ j).
Qed.

Section Expand.
  Variable g : rawg.
  Variable fs : list factor.
  Hypothesis Hfs : factors g = Some fs.
  Notation N := (g_n g).
  Hypothesis fsN : forall f, In f fs -> match f with FVertex v => v < N | FEdge x y => x < y /\ y < N end.
  Variable n : nat.
  Hypothesis Hn : n <= S N.

  (** The subtree at [i]: the children of each branch are the possible next factors; everything below [i] is at or after [L]. *)
  Fixpoint tree (r : nat) (d : list branch) (F : list nat) (L i : nat) (p : list factor) : Prop :=
    exists b, nth_error d i = Some b /\ up d i p /\
      match r with O => In i F | S r => Forall2 (fun j f => L <= j /\ tree r d F L j (f :: p)) (b_children b) (next N fs r p) end.
  Lemma tree_mono r d d' F F' L i p : (forall k b, k = i \/ L <= k -> nth_error d k = Some b -> nth_error d' k = Some b) -> (forall k q, up d k q -> up d' k q) -> incl F F' -> tree r d F L i p -> tree r d' F' L i p.
  Proof.
    clear fsN Hn. revert i p. induction r as [|r IH]; intros i p H HU HF (b & E & V & FF); exists b; (split; [apply H; auto|split; [now apply HU|]]); [now apply HF|].
    eapply Forall2_impl; [|exact FF]. intros j f [A B]. split; [exact A|]. apply IH; [|exact HU|exact HF|exact B]. intros k b' [->|Hk]; apply H; right; assumption.
  Qed.
  Lemma tree_weaken r d F L L' i p : L' <= L -> tree r d F L i p -> tree r d F L' i p.
  Proof.
    clear fsN Hn. intros HL. revert i p. induction r as [|r IH]; intros i p (b & E & V & FF); exists b; (split; [assumption|split; [exact V|]]); [assumption|].
    eapply Forall2_impl; [|exact FF]. intros j f [A B]. split; [lia|]. now apply IH.
  Qed.

  Definition count (k : nat) (ps : list (list factor)) : nat := length (filter (fun p => dimension p =? k) ps).
  Lemma count_app k ps qs : count k (ps ++ qs) = count k ps + count k qs.
  Proof. unfold count. now rewrite filter_app, app_length. Qed.
  Definition top_dim (ps : list (list factor)) : nat := list_max (map dimension ps).
  Record Inv (c : cplx) (ps : list (list factor)) : Prop := {
    I_pool : c_pool c = g;
    I_final : Forall2 (up (c_data c)) (c_final c) ps;
    I_ranks : c_ranks c = map (fun k => count k ps) (seq 0 (n + 1));
    I_dim : c_dim c = top_dim ps }.

  Lemma close_spec c i p ps : Inv c ps -> up (c_data c) i p -> length p <= n ->
    exists c', close_branch c i = Some c' /\ Inv c' (ps ++ [p]) /\ c_first c' = c_first c /\ c_data c' = c_data c /\ c_final c' = c_final c ++ [i].
  Proof.
    intros HI HU Hp. unfold close_branch. set (c1 := Cplx _ _ _ _ _ _).
    rewrite (dim_of_up c1 i p) by exact HU. cbn [obind]. unfold c1 at 1. cbn [c_ranks]. rewrite (I_ranks _ _ HI). pose proof (dimension_le p) as Hd.
    rewrite nth_error_map, nth_error_nth' with (d := 0) by (rewrite seq_length; lia). rewrite seq_nth by lia. cbn [option_map obind Nat.add].
    eexists. split; [reflexivity|]. split; [|split; [|split]; reflexivity]. constructor; cbn [c_pool c_data c_final c_ranks c_dim c1].
    - apply HI.
    - apply Forall2_app; [apply HI|]. constructor; [exact HU|constructor].
    - rewrite (I_ranks _ _ HI). apply nth_error_ext. intros k. destruct (Nat.lt_ge_cases k (n + 1)) as [K|K].
      + rewrite lset_nth_error. rewrite !nth_error_map, map_length, seq_length, !nth_error_nth' with (d := 0) by (rewrite seq_length; lia). rewrite !seq_nth by lia. cbn [option_map Nat.add]. rewrite !count_app. assert (KC : count k [p] = if k =? dimension p then 1 else 0).
        { unfold count. cbn [filter]. rewrite (Nat.eqb_sym (dimension p) k). now destruct (k =? dimension p). }
        rewrite KC. destruct (Nat.eqb_spec k (dimension p)) as [->|Hk].
        * rewrite (proj2 (Nat.ltb_lt _ _)) by lia. reflexivity.
        * f_equal. lia.
      + rewrite !(proj2 (nth_error_None _ _)); [reflexivity| |]; rewrite ?lset_length, map_length, seq_length; lia.
    - unfold c1. cbn [c_dim]. rewrite (I_dim _ _ HI). unfold top_dim. rewrite map_app, list_max_app. change (list_max (map dimension [p])) with (Nat.max (dimension p) 0). destruct (Nat.ltb_spec (list_max (map dimension ps)) (dimension p)); lia.
  Qed.
  Lemma Inv_agree c c' i ps : Inv c ps -> agree i (c_data c) (c_data c') -> c_pool c' = c_pool c -> c_final c' = c_final c -> c_ranks c' = c_ranks c -> c_dim c' = c_dim c -> Inv c' ps.
  Proof.
    intros [A B C D] HA E1 E2 E3 E4. constructor; try congruence. rewrite E2. eapply Forall2_impl; [|exact B]. intros k p. now apply (agree_up i).
  Qed.
  Lemma new_factors_spec c i p ps r : Inv c ps -> up (c_data c) i p -> r <= N -> new_factors c i r = Some (next N fs r p).
  Proof.
    intros HI HU Hr. unfold new_factors, boundary_vertex. rewrite (I_pool _ _ HI). rewrite (proj2 (Nat.leb_le _ _)) by exact Hr. cbn [obind]. rewrite Hfs. cbn [obind].
    rewrite (filterM_filter _ (keepb N r)). 2: { intros f Hf. apply keeps_keepb. specialize (fsN f Hf). destruct f; lia. }
    cbn [obind]. rewrite (factor_iter_up c i p HU). cbn [obind]. destruct (up_val _ _ _ HU) as (b & E & V). rewrite E. cbn [obind]. now rewrite V.
  Qed.
  Lemma set_children_spec d i j b : nth_error d i = Some b -> set_children d i j = Some (lset d i (Branch (b_parent b) (b_children b ++ [j]) (b_val b))).
  Proof. intros E. unfold set_children. now rewrite E. Qed.

  Definition child_step (r i : nat) (c : cplx) (f : factor) : option cplx :=
    let j := length (c_data c) in
    do d <- set_children (c_data c) i j;
    expand r (Cplx (c_pool c) (d ++ [Branch (Some i) [] f]) (c_first c) (c_final c) (c_dim c) (c_ranks c)) j.

  Lemma expand_spec r : forall c i p ps b, Inv c ps -> up (c_data c) i p -> length p + r = n -> nth_error (c_data c) i = Some b -> b_children b = [] ->
    exists c', expand r c i = Some c' /\ Inv c' (ps ++ enum N fs r p) /\ c_first c' = c_first c /\ agree i (c_data c) (c_data c') /\ incl (c_final c) (c_final c') /\ tree r (c_data c') (c_final c') (length (c_data c)) i p.
  Proof.
    induction r as [|r IH]; intros c i p ps b HI HU HL E Eb.
    - cbn [expand enum]. destruct (close_spec c i p ps HI HU ltac:(lia)) as (c' & E' & HI' & F' & D' & F2'). exists c'. rewrite D'. split; [exact E'|]. split; [exact HI'|]. split; [exact F'|]. split; [apply agree_refl|]. rewrite F2'.
      split; [apply incl_appl, incl_refl|]. cbn. exists b. split; [exact E|]. split; [exact HU|]. apply in_or_app. right. now left.
    - cbn [expand enum]. pose proof (up_nonnil _ _ _ HU) as Hp. assert (0 < length p) by (destruct p; [congruence|cbn; lia]).
      rewrite (new_factors_spec c i p ps r HI HU) by lia. cbn [obind]. pose proof (up_lt _ _ _ HU) as Hi. set (L := length (c_data c)) in *.
      change (fun (c0 : cplx) (f : factor) => _) with (child_step r i).
      assert (G : forall fs2 fs1 c1 ch, Inv c1 (ps ++ flat_map (fun f => enum N fs r (f :: p)) fs1) -> c_first c1 = c_first c -> incl (c_final c) (c_final c1) -> agree i (c_data c) (c_data c1) ->
        nth_error (c_data c1) i = Some (Branch (b_parent b) ch (b_val b)) -> Forall2 (fun j f => L <= j /\ tree r (c_data c1) (c_final c1) L j (f :: p)) ch fs1 ->
        exists c', foldM (child_step r i) fs2 c1 = Some c' /\ Inv c' (ps ++ flat_map (fun f => enum N fs r (f :: p)) (fs1 ++ fs2)) /\ c_first c' = c_first c /\ incl (c_final c) (c_final c') /\ agree i (c_data c) (c_data c') /\
          exists ch', nth_error (c_data c') i = Some (Branch (b_parent b) ch' (b_val b)) /\ Forall2 (fun j f => L <= j /\ tree r (c_data c') (c_final c') L j (f :: p)) ch' (fs1 ++ fs2)).
      { induction fs2 as [|f fs2 IH2]; intros fs1 c1 ch HI1 F1 C1 A1 E1 T1.
        - rewrite app_nil_r. exists c1. cbn. eauto 12.
        - cbn [foldM]. unfold child_step at 1. set (j := length (c_data c1)). rewrite (set_children_spec _ _ _ _ E1). cbn [obind b_parent b_children b_val].
          set (d3 := lset (c_data c1) i (Branch (b_parent b) (ch ++ [j]) (b_val b)) ++ [Branch (Some i) [] f]).
          set (c3 := Cplx (c_pool c1) d3 (c_first c1) (c_final c1) (c_dim c1) (c_ranks c1)).
          pose proof (proj1 A1) as HLj. fold L j in HLj.
          assert (Hl3 : length d3 = S j) by (unfold d3; rewrite app_length, lset_length; cbn; lia).
          assert (N3 : forall k b', k <> i -> nth_error (c_data c1) k = Some b' -> nth_error d3 k = Some b').
          { intros k b' Hk Ek. unfold d3. assert (k < j) by (apply nth_error_Some; congruence). rewrite nth_error_app1 by (rewrite lset_length; assumption). rewrite lset_nth_error. destruct (Nat.eqb_spec k i); [contradiction|exact Ek]. }
          assert (N3i : nth_error d3 i = Some (Branch (b_parent b) (ch ++ [j]) (b_val b))).
          { unfold d3. rewrite nth_error_app1 by (rewrite lset_length; lia). rewrite lset_nth_error, Nat.eqb_refl. rewrite (proj2 (Nat.ltb_lt _ _)) by lia. reflexivity. }
          assert (N3j : nth_error d3 j = Some (Branch (Some i) [] f)).
          { unfold d3. rewrite nth_error_app2 by (rewrite lset_length; lia). rewrite lset_length. fold j. now rewrite Nat.sub_diag. }
          assert (A13 : agree i (c_data c1) d3).
          { split; [fold j; lia|]. split; [exact N3|]. intros b' Eb'. rewrite E1 in Eb'. injection Eb' as <-. eexists. exact N3i. }
          assert (HI3 : Inv c3 (ps ++ flat_map (fun f => enum N fs r (f :: p)) fs1)) by (apply (Inv_agree c1 c3 i); auto).
          assert (U3 : up d3 j (f :: p)).
          { change f with (b_val (Branch (Some i) [] f)) at 1. apply (up_step _ _ i); [exact N3j|reflexivity|lia|]. apply (agree_up i (c_data c1)); [exact A13|]. now apply (agree_up i (c_data c)). }
          destruct (IH c3 j (f :: p) _ _ HI3 U3 ltac:(cbn; lia) N3j eq_refl) as (c4 & E4 & HI4 & F4 & A4 & C4 & T4). rewrite E4. cbn [obind].
          rewrite <- app_assoc in HI4. change (c_data c3) with d3 in *. change (c_final c3) with (c_final c1) in C4. rewrite Hl3 in T4. pose proof A4 as (A4a & A4b & A4c).
          destruct (IH2 (fs1 ++ [f]) c4 (ch ++ [j])) as (c5 & E5 & R5).
          + rewrite flat_map_app. cbn [flat_map]. rewrite app_nil_r. exact HI4.
          + rewrite F4. exact F1.
          + now apply (incl_tran C1).
          + destruct A1 as (A1a & A1b & A1c). split; [lia|]. split.
            * intros k b' Hk Ek. assert (k < L) by (apply nth_error_Some; congruence). apply A4b; [lia|]. apply N3; [exact Hk|]. now apply A1b.
            * intros b' Eb'. assert (b' = b) by congruence. subst b'. exists (ch ++ [j]). apply A4b; [lia|exact N3i].
          + apply A4b; [lia|exact N3i].
          + apply Forall2_app.
            * eapply Forall2_impl; [|exact T1]. intros k f' [Hk Tk]. split; [exact Hk|]. apply (tree_mono r (c_data c1) _ (c_final c1)); [|intros k' q Hq; apply (agree_up j d3 _ _ _ A4); now apply (agree_up i (c_data c1))|exact C4|exact Tk]. intros k' b' Hk' Ek'. assert (L <= k') by (destruct Hk'; lia). assert (k' < j) by (apply nth_error_Some; congruence).
              apply A4b; [lia|]. apply N3; [lia|exact Ek'].
            * constructor; [|constructor]. split; [lia|]. apply (tree_weaken r _ _ (S j)); [lia|exact T4].
          + rewrite <- app_assoc in R5. exists c5. split; [exact E5|exact R5]. }
      destruct (G (next N fs r p) [] c []) as (c' & E' & HI' & F' & C' & A' & ch' & Ei & T').
      + cbn. now rewrite app_nil_r.
      + reflexivity.
      + apply incl_refl.
      + apply agree_refl.
      + rewrite E. destruct b; cbn in Eb; subst; reflexivity.
      + constructor.
      + exists c'. split; [exact E'|]. split; [exact HI'|]. split; [exact F'|]. split; [exact A'|]. split; [exact C'|]. cbn. eexists. split; [exact Ei|]. cbn. split; [|exact T']. now apply (agree_up i (c_data c)).
  Qed.
End Expand.
