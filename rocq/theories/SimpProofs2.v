(** The invariant of a complex built by [attach], and the cells of each dimension. *)
From Coq Require Import List Arith ZArith NArith Bool Lia ZifyBool ZifyNat ZifyN Permutation Sorted.
From Verif Require Import UtilModel UtilSpec UtilProofs PidModel LinModel LinSpec LinProofs MatModel MatProofs SnfModel SimpModel SimpSpec SimpProofs.
Import ListNotations.
Open Scope nat_scope.

Lemma good_mono n m c w : good n c w -> n <= m -> m <= 64 -> good m c w.
Proof. intros (A & B & C & D & E & F) H1 H2. repeat (split; [first [assumption|lia]|]). assumption. Qed.

Section C.
  Context {T : Type}.
  Variable eqb : T -> T -> bool.
  Hypothesis eqb_spec : forall x y, eqb x y = true <-> x = y.

  Lemma eqb_refl x : eqb x x = true. Proof. now apply eqb_spec. Qed.
  Lemma existsb_eqb x l : existsb (eqb x) l = true <-> In x l.
  Proof. rewrite existsb_exists. split; [intros (y & H & E); apply eqb_spec in E; now subst|intros H; exists x; split; [assumption|apply eqb_refl]]. Qed.

  (** words of the maximal cells *)
  Definition words (K : cplx T) : list N := map (fun c => hd 0%N (c_v c)) (k_max K).
  Record Inv (labels : list T) (cov src : list (list T)) (K : cplx T) : Prop := {
    I_labels : k_labels K = labels;
    I_nodup : NoDup labels;
    I_size : k_size K = length labels;
    I_small : length labels <= 64;
    I_good : Forall (fun c => good (length labels) c (hd 0%N (c_v c))) (k_max K);
    I_anti : forall i j wi wj, nth_error (words K) i = Some wi -> nth_error (words K) j = Some wj -> wsub wi wj -> i = j;
    I_cov : forall s, In s cov -> exists w, In w (words K) /\ forall x, In x s -> exists i, nth_error labels i = Some x /\ tb w i = true;
    I_src : forall w, In w (words K) -> exists s, In s src /\ forall i, tb w i = true -> exists x, nth_error labels i = Some x /\ In x s;
    I_all : forall i, i < length labels -> exists w, In w (words K) /\ tb w i = true;
    I_lab : forall x, In x labels -> exists s, In s src /\ In x s }.

  Lemma In_words K w : In w (words K) <-> exists c, In c (k_max K) /\ w = hd 0%N (c_v c).
  Proof. unfold words. rewrite in_map_iff. split; intros (c & A & B); exists c; auto. Qed.
  Lemma word_lt labels cov src K w : Inv labels cov src K -> In w (words K) -> (w < 2 ^ N.of_nat (length labels))%N /\ w <> 0%N.
  Proof.
    intros HI Hw. apply In_words in Hw. destruct Hw as (c & Hc & ->). pose proof (I_good _ _ _ _ HI) as HG. rewrite Forall_forall in HG.
    specialize (HG c Hc). split; [eapply good_lt; exact HG|]. destruct HG as (_ & H & _). exact H.
  Qed.

  Lemma new_Inv : Inv [] [] [] (@cplx_new T).
  Proof.
    constructor; cbn; try reflexivity; try constructor; try lia; try tauto.
    intros [|i] j wi wj H; discriminate H.
  Qed.

  Lemma nth_error_snoc {A} (l : list A) x i y : nth_error (l ++ [x]) i = Some y -> nth_error l i = Some y \/ (i = length l /\ y = x).
  Proof.
    intros H. destruct (Nat.lt_ge_cases i (length l)); [rewrite nth_error_app1 in H by assumption; now left|].
    rewrite nth_error_app2 in H by assumption. right. destruct (i - length l) as [|k] eqn:E; cbn in H; [split; [lia|congruence]|destruct k; discriminate].
  Qed.

  Definition add_label (acc : list T) (x : T) : list T := if existsb (eqb x) acc then acc else acc ++ [x].
  Lemma add_vertex_Inv labels cov src K x s : Inv labels cov src K -> In s src -> In x s -> length (add_label labels x) <= 64 ->
    exists K', add_vertex eqb K x = Some K' /\ Inv (add_label labels x) cov src K'.
  Proof.
    intros HI Hs Hx HL. unfold add_vertex, add_label in *. rewrite (I_labels _ _ _ _ HI). destruct (existsb (eqb x) labels) eqn:E.
    { exists K. split; [reflexivity|exact HI]. }
    set (n := length labels) in *. rewrite (I_size _ _ _ _ HI). fold n. rewrite app_length in HL. cbn [length] in HL. fold n in HL.
    destruct (cell_new_spec (S n) [S n - 1]) as (p & w & Ep & Hg & Hsz & Hw); [lia|discriminate|constructor; [intros []|constructor]|constructor; [lia|constructor]|].
    rewrite Ep. cbn [obind]. eexists. split; [reflexivity|].
    assert (Hhd : hd 0%N (c_v p) = w) by (destruct Hg as ((k & ->) & _); reflexivity).
    assert (HW : words (Cplx (S n) (k_max K ++ [p]) (labels ++ [x])) = words K ++ [w]).
    { unfold words. cbn [k_max]. rewrite map_app. cbn [map]. now rewrite Hhd. }
    assert (Hnx : ~ In x labels) by (intros H; apply existsb_eqb in H; congruence).
    assert (Hbit : forall i, tb w i = true <-> i = n).
    { intros i. rewrite Hw. cbn [In]. replace (S n - 1) with n by lia. split; [intros [H|[]]; congruence|intros ->; now left]. }
    assert (Hnth : forall i y, nth_error labels i = Some y -> nth_error (labels ++ [x]) i = Some y).
    { intros i y Hy. rewrite nth_error_app1; [exact Hy|]. apply nth_error_Some. congruence. }
    assert (Hlast : nth_error (labels ++ [x]) n = Some x).
    { rewrite nth_error_app2 by (unfold n; lia). replace (n - length labels) with 0 by (unfold n; lia). reflexivity. }
    constructor; cbn [k_labels k_size].
    - reflexivity.
    - eapply Permutation_NoDup; [apply Permutation_cons_append|]. constructor; [exact Hnx|apply (I_nodup _ _ _ _ HI)].
    - rewrite app_length. cbn. fold n. lia.
    - rewrite app_length. cbn. fold n. lia.
    - cbn [k_max]. rewrite app_length. cbn [length]. fold n. replace (n + 1) with (S n) by lia. apply Forall_app. split.
      + eapply Forall_impl; [|apply (I_good _ _ _ _ HI)]. cbv beta. intros c Hc. eapply good_mono; [exact Hc| |]; fold n; lia.
      + constructor; [|constructor]. now rewrite Hhd.
    - rewrite HW. intros i j wi wj Hi Hj Hsub. apply nth_error_snoc in Hi, Hj. destruct Hi as [Hi|[Hi ->]], Hj as [Hj|[Hj ->]].
      + eapply (I_anti _ _ _ _ HI); eassumption.
      + exfalso. destruct (word_lt _ _ _ _ wi HI (nth_error_In _ _ Hi)) as [Hlt Hnz]. apply Hnz. apply tb_ext. intros k. rewrite tb_0. destruct (tb wi k) eqn:Ek; [|reflexivity].
        pose proof (tb_true_lt _ _ _ Hlt Ek). apply Hsub, Hbit in Ek. fold n in H. lia.
      + exfalso. destruct (word_lt _ _ _ _ wj HI (nth_error_In _ _ Hj)) as [Hlt Hnz]. specialize (Hsub n (proj2 (Hbit n) eq_refl)).
        pose proof (tb_true_lt _ _ _ Hlt Hsub). fold n in H. lia.
      + congruence.
    - rewrite HW. intros t Ht. destruct (I_cov _ _ _ _ HI t Ht) as (v & Hv & H). exists v. split; [apply in_or_app; now left|].
      intros y Hy. destruct (H y Hy) as (i & A & B). exists i. split; [now apply Hnth|exact B].
    - rewrite HW. intros v Hv. apply in_app_or in Hv. destruct Hv as [Hv|[<-|[]]].
      + destruct (I_src _ _ _ _ HI v Hv) as (t & Ht & H). exists t. split; [exact Ht|]. intros i Hi. destruct (H i Hi) as (y & A & B). exists y. split; [now apply Hnth|exact B].
      + exists s. split; [exact Hs|]. intros i Hi. apply Hbit in Hi. subst i. exists x. split; [exact Hlast|exact Hx].
    - rewrite HW, app_length. cbn [length]. fold n. intros i Hi. destruct (Nat.eq_dec i n) as [->|NE].
      + exists w. split; [apply in_or_app; right; now left|now apply Hbit].
      + destruct (I_all _ _ _ _ HI i) as (v & Hv & H); [fold n; lia|]. exists v. split; [apply in_or_app; now left|exact H].
    - intros y Hy. apply in_app_or in Hy. destruct Hy as [Hy|[<-|[]]]; [now apply (I_lab _ _ _ _ HI)|exists s; split; assumption].
  Qed.

  Lemma add_label_len labels x : length labels <= length (add_label labels x).
  Proof. unfold add_label. destruct (existsb _ _); [lia|]. rewrite app_length. lia. Qed.
  Lemma add_labels_len l : forall labels, length labels <= length (fold_left add_label l labels).
  Proof. induction l as [|x l IH]; intros labels; cbn; [lia|]. specialize (IH (add_label labels x)). pose proof (add_label_len labels x). lia. Qed.
  Lemma add_label_in labels x y : In y (add_label labels x) <-> In y labels \/ y = x.
  Proof.
    unfold add_label. destruct (existsb (eqb x) labels) eqn:E.
    - apply existsb_eqb in E. split; [now left|]. intros [H| ->]; assumption.
    - rewrite in_app_iff. cbn. intuition congruence.
  Qed.
  Lemma add_labels_in l : forall labels y, In y (fold_left add_label l labels) <-> In y labels \/ In y l.
  Proof. induction l as [|x l IH]; intros labels y; cbn; [tauto|]. rewrite IH, add_label_in. intuition congruence. Qed.

  Lemma add_vertices_Inv cov src s : In s src -> forall l labels K, Inv labels cov src K -> incl l s ->
    length (fold_left add_label l labels) <= 64 ->
    exists K', foldM (add_vertex eqb) l K = Some K' /\ Inv (fold_left add_label l labels) cov src K'.
  Proof.
    intros Hs. induction l as [|x l IH]; intros labels K HI Hl HL; cbn [foldM fold_left]; [exists K; auto|].
    cbn [fold_left] in HL. pose proof (add_labels_len l (add_label labels x)).
    destruct (add_vertex_Inv labels cov src K x s HI Hs) as (K1 & E1 & HI1); [apply Hl; now left|lia|].
    rewrite E1. cbn [obind]. apply IH; [exact HI1|intros y Hy; apply Hl; now right|exact HL].
  Qed.

  Lemma label_pos_spec l x : In x l -> exists i, label_pos eqb l x = Some i /\ nth_error l i = Some x.
  Proof.
    induction l as [|y l IH]; intros H; [destruct H|]. cbn [label_pos]. destruct (eqb x y) eqn:E.
    - apply eqb_spec in E. subst. exists 0. split; reflexivity.
    - destruct H as [->|H]; [rewrite eqb_refl in E; discriminate|]. destruct (IH H) as (i & E1 & E2). exists (S i). rewrite E1. split; [reflexivity|exact E2].
  Qed.
  Lemma omap_label_pos labels s : incl s labels -> exists ix, omapM (label_pos eqb labels) s = Some ix /\
    length ix = length s /\ Forall2 (fun i x => nth_error labels i = Some x) ix s.
  Proof.
    induction s as [|x s IH]; intros H; cbn [omapM]; [exists []; repeat split; constructor|].
    destruct (label_pos_spec labels x) as (i & E1 & E2); [apply H; now left|]. destruct IH as (ix & E3 & E4 & E5); [intros y Hy; apply H; now right|].
    rewrite E1, E3. cbn [obind]. exists (i :: ix). split; [reflexivity|]. split; [cbn; lia|constructor; assumption].
  Qed.
  Lemma Forall2_in_l {A B} (R : A -> B -> Prop) l m x : Forall2 R l m -> In x l -> exists y, In y m /\ R x y.
  Proof. induction 1 as [|a b l m Hab H IH]; intros Hx; [destruct Hx|]. destruct Hx as [<-|Hx]; [exists b; split; [now left|assumption]|]. destruct (IH Hx) as (y & A1 & A2). exists y. split; [now right|assumption]. Qed.
  Lemma Forall2_in_r {A B} (R : A -> B -> Prop) l m y : Forall2 R l m -> In y m -> exists x, In x l /\ R x y.
  Proof. induction 1 as [|a b l m Hab H IH]; intros Hx; [destruct Hx|]. destruct Hx as [<-|Hx]; [exists a; split; [now left|assumption]|]. destruct (IH Hx) as (x & A1 & A2). exists x. split; [now right|assumption]. Qed.
  Lemma ix_NoDup (labels : list T) ix s : NoDup s -> Forall2 (fun i x => nth_error labels i = Some x) ix s -> NoDup ix.
  Proof.
    intros Hd H. induction H as [|i x ix s Hix H IH]; [constructor|]. inversion Hd as [|? ? Hn Hd']; subst. constructor; [|now apply IH].
    intros Hi. destruct (Forall2_in_l _ _ _ _ H Hi) as (y & Hy & E). rewrite Hix in E. injection E as <-. contradiction.
  Qed.
  Lemma ix_dup (labels : list T) ix s : NoDup labels -> ~ NoDup s -> Forall2 (fun i x => nth_error labels i = Some x) ix s -> ~ NoDup ix.
  Proof.
    intros Hl Hn H Hd. apply Hn. clear Hn. induction H as [|i x ix s Hix H IH]; [constructor|]. inversion Hd as [|? ? Hni Hd']; subst. constructor; [|now apply IH].
    intros Hx. destruct (Forall2_in_r _ _ _ _ H Hx) as (j & Hj & E). apply Hni. rewrite NoDup_nth_error in Hl.
    rewrite (Hl i j); [exact Hj|apply nth_error_Some; congruence|congruence].
  Qed.

  Lemma anti_filter (f : cell -> bool) K labels cov src c w : Inv labels cov src K -> hd 0%N (c_v c) = w ->
    (forall m, In m (k_max K) -> f m = true -> ~ wsub (hd 0%N (c_v m)) w) ->
    (forall m, In m (k_max K) -> f m = true -> ~ wsub w (hd 0%N (c_v m))) ->
    forall i j wi wj, nth_error (map (fun c => hd 0%N (c_v c)) (filter f (k_max K) ++ [c])) i = Some wi ->
      nth_error (map (fun c => hd 0%N (c_v c)) (filter f (k_max K) ++ [c])) j = Some wj -> wsub wi wj -> i = j.
  Proof.
    intros HI Hc H1 H2 i j wi wj. rewrite map_app. cbn [map]. rewrite Hc. intros Hi Hj Hs. apply nth_error_snoc in Hi, Hj.
    assert (FI : forall k v, nth_error (map (fun c => hd 0%N (c_v c)) (filter f (k_max K))) k = Some v -> exists m, In m (k_max K) /\ f m = true /\ v = hd 0%N (c_v m)).
    { intros k v Hk. apply nth_error_In in Hk. apply in_map_iff in Hk. destruct Hk as (m & <- & Hm). apply filter_In in Hm. exists m. tauto. }
    destruct Hi as [Hi|[Hi ->]], Hj as [Hj|[Hj ->]].
    - clear - HI Hi Hj Hs. pose proof (I_anti _ _ _ _ HI) as HA. unfold words in HA. revert i j Hi Hj HA. generalize (k_max K). induction l as [|m l IH]; intros i j Hi Hj HA.
      + destruct i; discriminate.
      + cbn [filter] in Hi, Hj. assert (HA' : forall i j wi wj, nth_error (map (fun c => hd 0%N (c_v c)) l) i = Some wi -> nth_error (map (fun c => hd 0%N (c_v c)) l) j = Some wj -> wsub wi wj -> i = j).
        { intros a b wa wb Ha Hb Hab. specialize (HA (S a) (S b) wa wb Ha Hb Hab). lia. }
        destruct (f m); [|now apply IH]. cbn [map] in Hi, Hj.
        assert (HF : forall k v, nth_error (map (fun c => hd 0%N (c_v c)) (filter f l)) k = Some v -> exists k', nth_error (map (fun c => hd 0%N (c_v c)) l) k' = Some v).
        { intros k v Hk. apply nth_error_In in Hk. apply In_nth_error. apply in_map_iff in Hk. destruct Hk as (c0 & <- & Hc0). apply filter_In in Hc0. apply in_map_iff. exists c0. tauto. }
        destruct i as [|i], j as [|j]; [reflexivity| | |f_equal; now apply IH].
        * cbn in Hi, Hj. destruct (HF _ _ Hj) as (k' & Hk'). specialize (HA 0 (S k') wi wj Hi Hk' Hs). discriminate.
        * cbn in Hi, Hj. destruct (HF _ _ Hi) as (k' & Hk'). specialize (HA (S k') 0 wi wj Hk' Hj Hs). discriminate.
    - destruct (FI _ _ Hi) as (m & A & B & ->). exfalso. now apply (H1 m).
    - destruct (FI _ _ Hj) as (m & A & B & ->). exfalso. now apply (H2 m).
    - congruence.
  Qed.

  Lemma attach_Inv labels hist K s : Inv labels hist hist K -> s <> [] -> NoDup s ->
    length (fold_left add_label s labels) <= 64 ->
    exists K', attach eqb K (Simplex (length s - 1) s) = Some K' /\ Inv (fold_left add_label s labels) (hist ++ [s]) (hist ++ [s]) K'.
  Proof.
    intros HI Hne Hd HL. unfold attach. cbn [s_labels].
    assert (HI0 : Inv labels hist (hist ++ [s]) K).
    { destruct HI. constructor; try assumption.
      - intros w Hw. destruct (I_src0 w Hw) as (t & Ht & H). exists t. split; [apply in_or_app; now left|exact H].
      - intros x Hx. destruct (I_lab0 x Hx) as (t & Ht & H). exists t. split; [apply in_or_app; now left|exact H]. }
    destruct (add_vertices_Inv hist (hist ++ [s]) s ltac:(apply in_or_app; right; now left) s labels K HI0 (incl_refl s) HL) as (K1 & E1 & HI1).
    rewrite E1. cbn [obind]. set (L := fold_left add_label s labels) in *. rewrite (I_labels _ _ _ _ HI1).
    assert (HsL : incl s L) by (intros x Hx; apply add_labels_in; now right).
    destruct (omap_label_pos L s HsL) as (ix & E2 & Elen & HF). rewrite E2. cbn [obind]. rewrite (I_size _ _ _ _ HI1).
    destruct (cell_new_spec (length L) ix) as (c & w & Ec & Hg & Hsz & Hw).
    { exact HL. } { intros ->. apply Hne. destruct s; [reflexivity|discriminate]. } { eapply ix_NoDup; eassumption. }
    { apply Forall_forall. intros i Hi. destruct (Forall2_in_l _ _ _ _ HF Hi) as (y & _ & E). apply nth_error_Some. congruence. }
    rewrite Ec. cbn [obind].
    assert (Hws : forall i, tb w i = true <-> exists x, nth_error L i = Some x /\ In x s).
    { intros i. rewrite Hw. split.
      - intros Hi. destruct (Forall2_in_l _ _ _ _ HF Hi) as (y & Hy & E). eauto.
      - intros (x & E & Hx). destruct (Forall2_in_r _ _ _ _ HF Hx) as (j & Hj & Ej). pose proof (I_nodup _ _ _ _ HI1) as ND. rewrite NoDup_nth_error in ND.
        rewrite (ND i j); [exact Hj|apply nth_error_Some; congruence|congruence]. }
    assert (Hcov : forall x, In x s -> exists i, nth_error L i = Some x /\ tb w i = true).
    { intros x Hx. destruct (Forall2_in_r _ _ _ _ HF Hx) as (j & Hj & Ej). exists j. split; [exact Ej|now apply Hw]. }
    assert (Hhd : hd 0%N (c_v c) = w) by (destruct Hg as ((k & ->) & _); reflexivity).
    pose proof (I_good _ _ _ _ HI1) as HG. rewrite Forall_forall in HG.
    assert (Hct : forall m, In m (k_max K1) -> cell_contains m c = true <-> wsub w (hd 0%N (c_v m))) by (intros m Hm; eapply contains_good; [now apply HG|exact Hg]).
    assert (Hct2 : forall m, In m (k_max K1) -> cell_contains c m = true <-> wsub (hd 0%N (c_v m)) w) by (intros m Hm; eapply contains_good; [exact Hg|now apply HG]).
    destruct (existsb (fun m => cell_contains m c) (k_max K1)) eqn:EX.
    - eexists. split; [reflexivity|]. apply existsb_exists in EX. destruct EX as (m & Hm & Em). apply Hct in Em; [|assumption].
      destruct HI1. constructor; try assumption. intros t Ht. apply in_app_or in Ht. destruct Ht as [Ht|[<-|[]]]; [now apply I_cov0|].
      exists (hd 0%N (c_v m)). split; [apply In_words; eauto|]. intros x Hx. destruct (Hcov x Hx) as (i & A & B). exists i. split; [exact A|now apply Em].
    - eexists. split; [reflexivity|].
      assert (Hnone : forall m, In m (k_max K1) -> ~ wsub w (hd 0%N (c_v m))).
      { intros m Hm Hs. apply Hct in Hs; [|assumption]. assert (existsb (fun m => cell_contains m c) (k_max K1) = true) by (apply existsb_exists; eauto). congruence. }
      set (f := fun m => negb (cell_contains c m)).
      assert (HW : forall v, In v (words K1) -> wsub v w \/ In v (words (Cplx (length L) (filter f (k_max K1) ++ [c]) L))).
      { intros v Hv. apply In_words in Hv. destruct Hv as (m & Hm & ->). destruct (cell_contains c m) eqn:Em; [left; now apply Hct2|right].
        apply In_words. exists m. split; [|reflexivity]. cbn [k_max]. apply in_or_app. left. apply filter_In. split; [assumption|]. unfold f. now rewrite Em. }
      assert (Hwin : In w (words (Cplx (length L) (filter f (k_max K1) ++ [c]) L))).
      { apply In_words. exists c. split; [cbn; apply in_or_app; right; now left|now symmetry]. }
      constructor; cbn [k_labels k_size].
      + reflexivity.
      + apply (I_nodup _ _ _ _ HI1).
      + reflexivity.
      + exact HL.
      + cbn [k_max]. apply Forall_app. split; [apply Forall_forall; intros m Hm; apply filter_In in Hm; now apply HG|]. constructor; [|constructor]. now rewrite Hhd.
      + unfold words. cbn [k_max]. apply (anti_filter f K1 L hist (hist ++ [s]) c w HI1 Hhd).
        * intros m Hm Hf Hs. apply Hct2 in Hs; [|assumption]. unfold f in Hf. rewrite Hs in Hf. discriminate.
        * intros m Hm _. now apply Hnone.
      + intros t Ht. apply in_app_or in Ht. destruct Ht as [Ht|[<-|[]]].
        * destruct (I_cov _ _ _ _ HI1 t Ht) as (v & Hv & H). destruct (HW v Hv) as [Hs|Hv'].
          -- exists w. split; [exact Hwin|]. intros x Hx. destruct (H x Hx) as (i & A & B). exists i. split; [exact A|now apply Hs].
          -- exists v. split; [exact Hv'|exact H].
        * exists w. split; [exact Hwin|exact Hcov].
      + intros v Hv. apply In_words in Hv. cbn [k_max] in Hv. destruct Hv as (m & Hm & ->). apply in_app_or in Hm. destruct Hm as [Hm|[<-|[]]].
        * apply filter_In in Hm. apply (I_src _ _ _ _ HI1). apply In_words. exists m. tauto.
        * exists s. split; [apply in_or_app; right; now left|]. rewrite Hhd. intros i Hi. now apply Hws.
      + intros i Hi. destruct (I_all _ _ _ _ HI1 i Hi) as (v & Hv & H). destruct (HW v Hv) as [Hs|Hv']; [exists w; split; [exact Hwin|now apply Hs]|exists v; split; assumption].
      + apply (I_lab _ _ _ _ HI1).
  Qed.

  Lemma skeleton_snoc hist s : skeleton eqb (hist ++ [s]) = fold_left add_label s (skeleton eqb hist).
  Proof. unfold skeleton. rewrite concat_app, fold_left_app. cbn [concat]. rewrite app_nil_r. reflexivity. Qed.
  Lemma foldM_snoc {A S} (g : S -> A -> option S) l x s : foldM g (l ++ [x]) s = obind (foldM g l s) (fun s' => g s' x).
  Proof. revert s. induction l as [|y l IH]; intros s; cbn; [destruct (g s x); reflexivity|]. destruct (g s y); cbn; auto. Qed.

  Theorem attach_all_Inv hist : valid_hist hist -> length (skeleton eqb hist) <= 64 ->
    exists K, attach_all eqb hist = Some K /\ Inv (skeleton eqb hist) hist hist K.
  Proof.
    induction hist as [|s hist IH] using rev_ind; intros HV HL; [exists cplx_new; split; [reflexivity|apply new_Inv]|].
    apply Forall_app in HV. destruct HV as [HV1 HV2]. inversion HV2 as [|? ? [Hne Hd] _]; subst. rewrite skeleton_snoc in *.
    pose proof (add_labels_len s (skeleton eqb hist)). destruct IH as (K & E & HI); [exact HV1|lia|].
    unfold attach_all in *. rewrite foldM_snoc, E. cbn [obind]. destruct s as [|x s]; [contradiction|]. cbn [simplex_from obind].
    destruct (attach_Inv _ _ _ (x :: s) HI Hne Hd HL) as (K' & E' & HI'). cbn [length] in E'. rewrite Nat.sub_succ, Nat.sub_0_r in E'. exists K'. split; assumption.
  Qed.

  (** A history with an invalid simplex panics. *)
  Theorem attach_rejects hist s : valid_hist hist -> length (skeleton eqb (hist ++ [s])) <= 64 -> ~ (s <> [] /\ NoDup s) ->
    attach_all eqb (hist ++ [s]) = None.
  Proof.
    intros HV HL HB. pose proof (skeleton_snoc hist s) as ES. rewrite ES in HL. pose proof (add_labels_len s (skeleton eqb hist)).
    destruct (attach_all_Inv hist HV) as (K & E & HI); [lia|]. unfold attach_all in *. rewrite foldM_snoc, E. cbn [obind].
    destruct s as [|x s]; [reflexivity|]. assert (ND : ~ NoDup (x :: s)) by (intros H'; apply HB; split; [discriminate|assumption]). cbn [simplex_from obind].
    set (s' := x :: s) in *. unfold attach. cbn [s_labels].
    assert (HI0 : Inv (skeleton eqb hist) hist (hist ++ [s']) K).
    { destruct HI. constructor; try assumption.
      - intros w Hw. destruct (I_src0 w Hw) as (t & Ht & H0). exists t. split; [apply in_or_app; now left|exact H0].
      - intros y Hx. destruct (I_lab0 y Hx) as (t & Ht & H0). exists t. split; [apply in_or_app; now left|exact H0]. }
    destruct (add_vertices_Inv hist (hist ++ [s']) s' ltac:(apply in_or_app; right; now left) s' _ K HI0 (incl_refl s') HL) as (K1 & E1 & HI1).
    rewrite E1. cbn [obind]. set (L := fold_left add_label s' (skeleton eqb hist)) in *. rewrite (I_labels _ _ _ _ HI1).
    destruct (omap_label_pos L s') as (ix & E2 & Elen & HF); [intros y Hy; apply add_labels_in; now right|]. rewrite E2. cbn [obind].
    rewrite cell_new_dup; [reflexivity|]. eapply ix_dup; [apply (I_nodup _ _ _ _ HI1)|exact ND|exact HF].
  Qed.
End C.
