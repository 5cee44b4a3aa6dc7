(** Sparse matrices: construction and iteration. *)
From Coq Require Import List Arith Bool Lia ZifyBool Sorted Permutation.
From Verif Require Import PidModel MatModel MatSpec MatProofs SnfModel SparseModel SparseSpec.
Import ListNotations.
Open Scope nat_scope.

Section Build.
  Context {T : Type} {OT : Ops T}.
  Notation node := (node T).
  Definition P (dir : bool) (g : nat -> list (nat * T)) (k : nat) (x : node) : Prop :=
    exists p, x = Start k p /\ iterate dir p = Some (g k).

  Lemma P_ext dir g g' ks l : (forall k, In k ks -> g k = g' k) -> Forall2 (P dir g) ks l -> Forall2 (P dir g') ks l.
  Proof.
    intros H F. induction F as [|k x ks l (p & -> & E) F IH]; constructor.
    - exists p. split; [reflexivity|]. rewrite E. f_equal. apply H. now left.
    - apply IH. intros; apply H; now right.
  Qed.
  Lemma add_to_cols_ok g ks cols i j v curr l : Forall2 (P false g) ks cols -> NoDup ks -> (~ In j ks -> g j = []) -> iterate true curr = Some l ->
    exists cols' nn ks', add_to_cols cols i j v curr = Some (cols', nn) /\ is_end nn = false /\ iterate true nn = Some ((j, v) :: l) /\
      NoDup ks' /\ (forall c, In c ks' <-> In c ks \/ c = j) /\
      Forall2 (P false (fun c => if c =? j then (i, v) :: g j else g c)) ks' cols'.
  Proof.
    intros F Hnd Hg Hl. induction F as [|k x ks cols (p & -> & E) F IH].
    - eexists _, _, [j]. split; [reflexivity|]. split; [reflexivity|]. split; [cbn; now rewrite Hl|]. split; [repeat constructor; auto|].
      split; [intros c; cbn; intuition|]. constructor; [|constructor]. eexists. split; [reflexivity|]. cbn. rewrite Nat.eqb_refl. rewrite Hg; auto.
    - inversion Hnd as [|? ? Hnk Hnd']; subst. cbn [add_to_cols start_node_idx obind start_ptr].
      destruct (Nat.eqb_spec k j) as [->|Hne].
      + eexists _, _, (j :: ks). split; [reflexivity|]. split; [reflexivity|]. split; [cbn; now rewrite Hl|]. split; [exact Hnd|].
        split; [intros c; cbn; intuition|]. constructor.
        * eexists. split; [reflexivity|]. cbn [iterate]. rewrite E. cbn. now rewrite Nat.eqb_refl.
        * apply (P_ext false g); [|exact F]. intros c Hc. destruct (Nat.eqb_spec c j); [subst; contradiction|reflexivity].
      + destruct IH as (cols' & nn & ks' & A1 & A2 & A3 & A4 & A5 & A6); auto.
        { intros Hn. apply Hg. intros [?|?]; [congruence|contradiction]. }
        rewrite A1. cbn [obind fst snd]. eexists _, _, (k :: ks'). split; [reflexivity|]. split; [exact A2|]. split; [exact A3|]. split; [|split].
        * constructor; [|exact A4]. intros Hk. apply A5 in Hk. destruct Hk; [contradiction|congruence].
        * intros c. cbn. rewrite A5. intuition.
        * constructor; [|exact A6]. exists p. split; [reflexivity|]. rewrite E. now replace (k =? j) with false by lia.
  Qed.

  (** sorting *)
  Lemma insert_ok dir g k x ks l : P dir g k x -> Forall2 (P dir g) ks l -> StronglySorted lt ks -> ~ In k ks ->
    exists ks' l', insert_start x l = Some l' /\ Forall2 (P dir g) ks' l' /\ StronglySorted lt ks' /\ Permutation (k :: ks) ks'.
  Proof.
    intros Hx F HS Hk. induction F as [|k1 x1 ks l H1 F IH].
    - exists [k], [x]. split; [reflexivity|]. split; [now repeat constructor|]. split; [repeat constructor|apply Permutation_refl].
    - destruct Hx as (p & -> & E). destruct H1 as (p1 & -> & E1). cbn [insert_start start_node_idx obind].
      inversion HS as [|? ? HS' HF]; subst. destruct (Nat.leb_spec k k1) as [Hle|Hgt].
      + exists (k :: k1 :: ks), (Start k p :: Start k1 p1 :: l). split; [reflexivity|]. split; [constructor; [exists p; auto|constructor; [exists p1; auto|exact F]]|].
        split; [|apply Permutation_refl]. assert (k < k1) by (cbn in Hk; lia). constructor; [exact HS|]. constructor; [assumption|].
        eapply Forall_impl; [|exact HF]. cbn; lia.
      + destruct IH as (ks' & l' & A1 & A2 & A3 & A4); auto. { intros Hi. apply Hk. now right. }
        rewrite A1. cbn [obind]. exists (k1 :: ks'), (Start k1 p1 :: l'). split; [reflexivity|]. split; [constructor; [exists p1; auto|exact A2]|].
        split; [|rewrite perm_swap; now constructor]. constructor; [exact A3|]. rewrite Forall_forall. intros y Hy. apply (Permutation_in _ (Permutation_sym A4)) in Hy.
        destruct Hy as [<-|Hy]; [lia|]. rewrite Forall_forall in HF. now apply HF.
  Qed.
  Lemma sort_ok dir g ks l : Forall2 (P dir g) ks l -> NoDup ks ->
    exists ks' l', sort_start l = Some l' /\ Forall2 (P dir g) ks' l' /\ StronglySorted lt ks' /\ Permutation ks ks'.
  Proof.
    intros F. induction F as [|k x ks l H F IH]; intros Hnd.
    - exists [], []. repeat split; constructor.
    - inversion Hnd; subst. destruct IH as (ks1 & l1 & A1 & A2 & A3 & A4); [assumption|]. cbn [sort_start]. rewrite A1. cbn [obind].
      destruct (insert_ok dir g k x ks1 l1 H A2 A3) as (ks2 & l2 & B1 & B2 & B3 & B4).
      { intros Hi. apply (Permutation_in _ (Permutation_sym A4)) in Hi. contradiction. }
      exists ks2, l2. split; [exact B1|]. split; [exact B2|]. split; [exact B3|]. rewrite <- B4. now constructor.
  Qed.
  Lemma ssorted_ok ks : StronglySorted lt ks -> ssorted ks = true.
  Proof.
    induction 1 as [|a ks HS IH HF]; [reflexivity|]. destruct ks as [|b ks]; [reflexivity|].
    change ((a <? b) && ssorted (b :: ks) = true). rewrite IH, andb_true_r. inversion HF; subst. lia.
  Qed.
  Lemma search_ok dir g ks l i : Forall2 (P dir g) ks l -> StronglySorted lt ks ->
    exists o, search l i = Some o /\ match o with
      | Some x => In i ks /\ P dir g i x | None => ~ In i ks end.
  Proof.
    intros F HS. unfold search.
    assert (E : omapM start_node_idx l = Some ks).
    { clear HS. induction F as [|k x ks l (p & -> & _) F IH]; [reflexivity|]. cbn. now rewrite IH. }
    rewrite E. cbn [obind]. rewrite ssorted_ok by exact HS. eexists. split; [reflexivity|]. clear E HS.
    induction F as [|k x ks l (p & -> & E) F IH]; [intros []|]. cbn [find start_node_idx].
    destruct (Nat.eqb_spec k i) as [->|Hne].
    - split; [now left|]. exists p; auto.
    - destruct (find _ l) as [x|]; [destruct IH as [I1 I2]; split; [now right|exact I2]|]. intros [?|?]; [congruence|contradiction].
  Qed.

  (** construction *)
  Definition colpart (f : nat -> nat -> option T) (lo n c : nat) : list (nat * T) :=
    flat_map (fun i => match f i c with Some v => [(i, v)] | None => [] end) (rng lo n).
  Definition rowpart (f : nat -> nat -> option T) (lo m i : nat) : list (nat * T) :=
    flat_map (fun j => match f i j with Some v => [(j, v)] | None => [] end) (rng lo m).
  Lemma rng_cons a b : a < b -> rng a b = a :: rng (S a) b.
  Proof. intros H. unfold rng. replace (b - a) with (S (b - S a)) by lia. reflexivity. Qed.
  Lemma rng_nil' a b : b <= a -> rng a b = [].
  Proof. intros H. unfold rng. now replace (b - a) with 0 by lia. Qed.
  Lemma foldM_rev {S} (g : S -> nat -> option S) (Q : nat -> S -> Prop) n s : Q n s ->
    (forall k s, k < n -> Q (k + 1) s -> exists s', g s k = Some s' /\ Q k s') -> exists s', foldM g (rev (seq 0 n)) s = Some s' /\ Q 0 s'.
  Proof.
    revert s. induction n as [|n IH]; intros s H0 Hs.
    - exists s. auto.
    - rewrite seq_S, rev_app_distr. cbn [rev app foldM plus]. destruct (Hs n s ltac:(lia)) as (s1 & E1 & H1); [now rewrite Nat.add_1_r|]. rewrite E1. cbn [obind].
      apply IH; [exact H1|]. intros k s2 Hk. apply Hs. lia.
  Qed.
  (** the state of the columns: column c holds [g c], keys are the nonempty columns *)
  Definition colsOK (g : nat -> list (nat * T)) (cols : list node) : Prop :=
    exists ks, Forall2 (P false g) ks cols /\ NoDup ks /\ forall c, In c ks <-> g c <> [].
  Lemma colsOK_ext g g' cols : (forall c, g c = g' c) -> colsOK g cols -> colsOK g' cols.
  Proof.
    intros H (ks & A & B & C). exists ks. split; [apply (P_ext false g); auto|]. split; [exact B|]. intros c. now rewrite <- H.
  Qed.
  Lemma from_row_ok f n m i cols : i < n -> colsOK (fun c => if c <? m then colpart f (i + 1) n c else []) cols ->
    exists cols' cur, foldM (from_row f i) (rev (seq 0 m)) (cols, End) = Some (cols', cur) /\
      iterate true cur = Some (rowpart f 0 m i) /\ (is_end cur = true <-> rowpart f 0 m i = []) /\ colsOK (fun c => if c <? m then colpart f i n c else []) cols'.
  Proof.
    intros Hi HC.
    destruct (foldM_rev (from_row f i) (fun j st => iterate true (snd st) = Some (rowpart f j m i) /\ (is_end (snd st) = true <-> rowpart f j m i = []) /\
       colsOK (fun c => if c <? m then colpart f (if c <? j then i + 1 else i) n c else []) (fst st)) m (cols, End)) as ((cols' & cur) & E & H1 & H2 & H3).
    - cbn [fst snd]. unfold rowpart. rewrite rng_nil' by lia. split; [reflexivity|]. split; [cbn; tauto|].
      refine (colsOK_ext _ _ _ _ HC). intros c. now destruct (c <? m).
    - intros j [cs cur] Hj (H1 & H2 & H3). cbn [fst snd] in *. unfold from_row. cbn [fst snd].
      assert (ER : rowpart f j m i = match f i j with Some v => (j, v) :: rowpart f (j + 1) m i | None => rowpart f (j + 1) m i end).
      { unfold rowpart. rewrite (rng_cons j) by lia. cbn [flat_map]. rewrite Nat.add_1_r. now destruct (f i j). }
      assert (EC : colpart f i n j = match f i j with Some v => (i, v) :: colpart f (i + 1) n j | None => colpart f (i + 1) n j end).
      { unfold colpart. rewrite (rng_cons i) by lia. cbn [flat_map]. rewrite Nat.add_1_r. now destruct (f i j). }
      destruct (f i j) as [v|] eqn:Ef.
      + destruct H3 as (ks & A & B & C).
        assert (Hnj : ~ In j ks -> (if j <? m then colpart f (if j <? j + 1 then i + 1 else i) n j else []) = []).
        { intros Hn. specialize (C j). destruct (if j <? m then colpart f (if j <? j + 1 then i + 1 else i) n j else []) as [|e t0'] eqn:E0; [reflexivity|].
          exfalso. apply Hn, C. discriminate. }
        destruct (add_to_cols_ok _ ks cs i j v cur _ A B Hnj H1)
          as (cs' & nn & ks' & D1 & D2 & D3 & D4 & D5 & D6).
        exists (cs', nn). split; [exact D1|]. cbn [fst snd]. rewrite ER. split; [exact D3|]. split; [rewrite D2; split; discriminate|].
        exists ks'. split; [|split; [exact D4|]].
        * refine (P_ext _ _ _ _ _ _ D6). intros c Hc. replace (j <? m) with true by lia. replace (j <? j + 1) with true by lia.
          destruct (Nat.eqb_spec c j) as [->|].
          -- replace (j <? m) with true by lia. replace (j <? j) with false by lia. now rewrite EC.
          -- now replace (c <? j + 1) with (c <? j) by lia.
        * intros c. rewrite D5, C. destruct (Nat.eqb_spec c j) as [->|].
          -- replace (j <? m) with true by lia. replace (j <? j) with false by lia. rewrite EC. split; [discriminate|auto].
          -- replace (c <? j + 1) with (c <? j) by lia. intuition.
      + exists (cs, cur). split; [reflexivity|]. cbn [fst snd]. rewrite ER. split; [exact H1|]. split; [exact H2|].
        refine (colsOK_ext _ _ _ _ H3). intros c. destruct (Nat.eqb_spec c j) as [->|].
        * replace (j <? m) with true by lia. replace (j <? j + 1) with true by lia. replace (j <? j) with false by lia. now rewrite EC.
        * now replace (c <? j + 1) with (c <? j) by lia.
    - exists cols', cur. split; [exact E|]. cbn [fst snd] in *. split; [exact H1|]. split; [exact H2|].
      refine (colsOK_ext _ _ _ _ H3). intros c. now destruct (c <? m).
  Qed.

  (** What a sparse matrix with entry function [f] yields. *)
  Definition Rep (n m : nat) (f : nat -> nat -> option T) (s : sparse T) : Prop :=
    s_size s = (n, m) /\ (forall i, row_iter s i = Some (if i <? n then row_list f m i else [])) /\
    (forall j, col_iter s j = Some (if j <? m then col_list f n j else [])).

  Lemma Forall2_app_one {A B} (R : A -> B -> Prop) l1 l2 a b : Forall2 R l1 l2 -> R a b -> Forall2 R (l1 ++ [a]) (l2 ++ [b]).
  Proof. induction 1; cbn; intros; constructor; auto. Qed.
  Lemma rowpart_0 f m i : rowpart f 0 m i = row_list f m i.
  Proof. unfold rowpart, row_list, rng. now rewrite Nat.sub_0_r. Qed.
  Lemma colpart_0 f n i : colpart f 0 n i = col_list f n i.
  Proof. unfold colpart, col_list, rng. now rewrite Nat.sub_0_r. Qed.

  Lemma sparse_from_ok n m f :
    ((exists i j, i < n /\ j < m /\ f i j <> None) -> exists s, sparse_from n m f = Some s /\ Rep n m f s) /\
    ((forall i j, i < n -> j < m -> f i j = None) -> exists s, sparse_from n m f = Some s /\ s_size s = (n, m) /\ (forall i, row_iter s i = None) /\ (forall j, col_iter s j = None)).
  Proof.
    unfold sparse_from.
    match goal with |- context [foldM ?g (rev (seq 0 n)) _] => set (step := g) end.
    destruct (foldM_rev step (fun i rc => colsOK (fun c => if c <? m then colpart f i n c else []) (snd rc) /\
       exists ks, Forall2 (P true (row_list f m)) ks (fst rc) /\ NoDup ks /\ forall k, In k ks <-> (i <= k < n /\ row_list f m k <> [])) n ([], [])) as ((rows & cols) & E & HC & (ks & HR1 & HR2 & HR3)).
    - cbn [fst snd]. split.
      + exists []. split; [constructor|]. split; [constructor|]. intros c. unfold colpart. rewrite rng_nil' by lia. destruct (c <? m); cbn; intuition congruence.
      + exists []. split; [constructor|]. split; [constructor|]. intros k. cbn. lia.
    - intros i [rows cols] Hi (HC & ks & HR1 & HR2 & HR3). cbn [fst snd] in *. unfold step. cbn [fst snd].
      destruct (from_row_ok f n m i cols Hi HC) as (cols' & cur & E & A1 & A2 & A3). rewrite E. cbn [obind fst snd]. eexists. split; [reflexivity|]. cbn [fst snd].
      split; [exact A3|]. rewrite rowpart_0 in *. destruct (is_end cur) eqn:Ee.
      + exists ks. split; [exact HR1|]. split; [exact HR2|]. intros k. rewrite HR3. destruct (Nat.eq_dec k i) as [->|]; [|intuition; lia].
        split; [intros [? ?]; lia|]. intros [_ Hn]. exfalso. now apply Hn, A2.
      + exists (ks ++ [i]). split; [apply Forall2_app_one; [exact HR1|]; exists cur; auto|]. split.
        * apply (Permutation_NoDup (Permutation_cons_append ks i)). constructor; [|exact HR2]. rewrite HR3. lia.
        * intros k. rewrite in_app_iff, HR3. cbn. assert (row_list f m i <> []) by (intros X; apply A2 in X; congruence).
          split; [intros [[? ?]|[<-|[]]]; split; auto; lia|]. intros [H1 H2]. destruct (Nat.eq_dec k i) as [->|]; [auto|]. left. split; [lia|exact H2].
    - rewrite E. cbn [obind fst snd] in *. destruct HC as (cks & HC1 & HC2 & HC3).
      destruct (sort_ok true _ ks rows HR1 HR2) as (ks' & rows' & S1 & S2 & S3 & S4).
      destruct (sort_ok false _ cks cols HC1 HC2) as (cks' & cols' & T1 & T2 & T3 & T4).
      rewrite S1, T1. cbn [obind].
      assert (RK : forall k, In k ks' <-> (k < n /\ row_list f m k <> [])).
      { intros k. split; intros H; [apply (Permutation_in _ (Permutation_sym S4)), HR3 in H; intuition|apply (Permutation_in _ S4), HR3; intuition lia]. }
      assert (CK : forall k, In k cks' <-> (k < m /\ col_list f n k <> [])).
      { intros k. split; intros H.
        - apply (Permutation_in _ (Permutation_sym T4)), HC3 in H. destruct (k <? m) eqn:B; [|congruence]. rewrite colpart_0 in H. split; [lia|exact H].
        - apply (Permutation_in _ T4), HC3. destruct H as [H1 H2]. replace (k <? m) with true by lia. now rewrite colpart_0. }
      assert (NE : forall i j, i < n -> j < m -> f i j <> None -> row_list f m i <> [] /\ col_list f n j <> []).
      { intros i j Hi Hj Hf. destruct (f i j) as [v|] eqn:Ef; [|congruence]. split; intros X.
        - assert (Y : In (j, v) (row_list f m i)) by (apply in_flat_map; exists j; split; [apply in_seq; lia|rewrite Ef; now left]). rewrite X in Y. contradiction.
        - assert (Y : In (i, v) (col_list f n j)) by (apply in_flat_map; exists i; split; [apply in_seq; lia|rewrite Ef; now left]). rewrite X in Y. contradiction. }
      split.
      + intros (i0 & j0 & Hi0 & Hj0 & Hf0). destruct (NE i0 j0 Hi0 Hj0 Hf0) as [N1 N2].
        assert (Hr : rows' <> []). { intros ->. inversion S2; subst. apply (RK i0). auto. }
        destruct rows' as [|r0 rt]; [contradiction|]. eexists. split; [reflexivity|]. split; [reflexivity|]. split.
        * intros i. unfold row_iter. cbn [s_rows s_transposed negb]. destruct (search_ok true _ ks' _ i S2 S3) as (o & Eo & Ho). rewrite Eo. cbn [obind].
          destruct o as [x|].
          -- destruct Ho as [I1 (p & -> & Ep)]. cbn [start_ptr obind]. rewrite Ep. apply RK in I1. now replace (i <? n) with true by lia.
          -- destruct (i <? n) eqn:B; [|reflexivity]. destruct (row_list f m i) eqn:EL; [reflexivity|]. exfalso. apply Ho, RK. split; [lia|]. rewrite EL. discriminate.
        * intros j. unfold col_iter. cbn [s_cols s_transposed negb]. destruct (search_ok false _ cks' _ j T2 T3) as (o & Eo & Ho). rewrite Eo. cbn [obind].
          destruct o as [x|].
          -- destruct Ho as [I1 (p & -> & Ep)]. cbn [start_ptr obind]. rewrite Ep. apply CK in I1. replace (j <? m) with true by lia. now rewrite colpart_0.
          -- destruct (j <? m) eqn:B; [|reflexivity]. destruct (col_list f n j) eqn:EL; [reflexivity|]. exfalso. apply Ho, CK. split; [lia|]. rewrite EL. discriminate.
      + intros HN.
        assert (R0 : forall i, i < n -> row_list f m i = []).
        { intros i Hi. unfold row_list.
          assert (X : forall l, (forall j, In j l -> j < m) -> flat_map (fun j => match f i j with Some v => [(j, v)] | None => [] end) l = []).
          { induction l as [|a l IH]; intros Hl; [reflexivity|]. cbn. rewrite HN; [|exact Hi|apply Hl; now left]. apply IH. intros; apply Hl; now right. }
          apply X. intros j Hj. apply in_seq in Hj. lia. }
        assert (C0 : forall j, j < m -> col_list f n j = []).
        { intros j Hj. unfold col_list.
          assert (X : forall l, (forall i, In i l -> i < n) -> flat_map (fun i => match f i j with Some v => [(i, v)] | None => [] end) l = []).
          { induction l as [|a l IH]; intros Hl; [reflexivity|]. cbn. rewrite HN; [|apply Hl; now left|exact Hj]. apply IH. intros; apply Hl; now right. }
          apply X. intros i Hi. apply in_seq in Hi. lia. }
        assert (Hr : rows' = []). { destruct S2 as [|k x ks1 l1 Hx]; [reflexivity|]. exfalso. destruct (RK k) as [X _]. destruct X as [X1 X2]; [now left|]. apply X2, R0, X1. }
        assert (Hc : cols' = []). { destruct T2 as [|k x ks1 l1 Hx]; [reflexivity|]. exfalso. destruct (CK k) as [X _]. destruct X as [X1 X2]; [now left|]. apply X2, C0, X1. }
        rewrite Hr, Hc. eexists. split; [reflexivity|]. split; [reflexivity|]. split; reflexivity.
  Qed.
  Lemma Rep_transpose n m f s : Rep n m f s -> Rep m n (fun i j => f j i) (s_transpose s).
  Proof.
    intros (H1 & H2 & H3). split; [|split].
    - unfold s_transpose. cbn [s_size]. now rewrite H1.
    - intros i. specialize (H3 i). unfold row_iter, col_iter in *. cbn [s_rows s_cols s_transposed s_transpose]. rewrite negb_involutive. exact H3.
    - intros i. specialize (H2 i). unfold row_iter, col_iter in *. cbn [s_rows s_cols s_transposed s_transpose]. exact H2.
  Qed.
End Build.
