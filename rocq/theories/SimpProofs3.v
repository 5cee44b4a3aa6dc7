(** The cells of each dimension as sets of words, and the labels of a cell. *)
From Coq Require Import List Arith ZArith NArith Bool Lia ZifyBool ZifyNat ZifyN Permutation Sorted.
From Verif Require Import UtilModel UtilSpec UtilProofs PidModel LinModel LinSpec LinProofs MatModel MatProofs SnfModel SimpModel SimpSpec SimpProofs SimpProofs2.
Import ListNotations.
Open Scope nat_scope.

Definition wd (c : cell) : N := hd 0%N (c_v c).
Lemma good_wd n c w : good n c w -> wd c = w.
Proof. intros ((k & E) & _). unfold wd. now rewrite E. Qed.

(** ** dedup of a sorted list *)
Lemma dedup_from_spec n : forall l x, good n x (wd x) -> Forall (fun c => good n c (wd c)) l ->
  StronglySorted (fun a b => (wd a <= wd b)%N) (x :: l) ->
  Forall (fun c => good n c (wd c)) (dedup_from x l) /\ incl (dedup_from x l) (x :: l) /\
  StronglySorted (fun a b => (wd a < wd b)%N) (dedup_from x l) /\ (forall w, In w (map wd (dedup_from x l)) <-> In w (map wd (x :: l))).
Proof.
  induction l as [|y l IH]; intros x Hx HF HS; cbn [dedup_from].
  { split; [constructor; [assumption|constructor]|]. split; [apply incl_refl|]. split; [constructor; constructor|]. intros w. reflexivity. }
  inversion HF as [|? ? Hy HF']; subst. inversion HS as [|? ? HS' HX]; subst. inversion HX as [|? ? Hxy HX']; subst.
  rewrite (eqb_good n n y x _ _ Hy Hx). destruct (N.eqb_spec (wd y) (wd x)) as [E|NE].
  - destruct (IH x Hx HF') as (A & B & C & D).
    { constructor; [|exact HX']. inversion HS'; assumption. }
    split; [exact A|]. split; [intros c Hc; apply B in Hc; destruct Hc as [<-|Hc]; [now left|right; now right]|]. split; [exact C|].
    intros w. rewrite D. cbn [map In]. rewrite E. tauto.
  - destruct (IH y Hy HF' HS') as (A & B & C & D). split; [constructor; assumption|]. split.
    { intros c [<-|Hc]; [now left|]. right. now apply B. }
    split.
    + constructor; [exact C|]. apply Forall_forall. intros c Hc. apply B in Hc. inversion HS' as [|? ? _ HY]; subst. rewrite Forall_forall in HY.
      assert (wd y <= wd c)%N. { destruct Hc as [<-|Hc]; [lia|now apply HY]. } lia.
    + intros w. cbn [map In]. rewrite D. cbn [map In]. tauto.
Qed.

Lemma cmp_good n d a b : good n a (wd a) -> good n b (wd b) -> c_dim a = Some d -> c_dim b = Some d -> cell_cmp a b = N.compare (wd a) (wd b).
Proof.
  intros Ha Hb Da Db. destruct Ha as ((j & Ea) & _), Hb as ((k & Eb) & _). unfold cell_cmp, dim_cmp. rewrite Da, Db, Nat.compare_refl.
  rewrite Ea, Eb. unfold pad. cbn [zipw]. rewrite zipw_zeros. unfold first_diff. cbn [find]. destruct (N.compare (wd a) (wd b)); try reflexivity.
  change (0 ?= 0)%N with Eq. assert (E : forall m, find (fun c => match c with Eq => false | _ => true end) (repeat Eq m) = None) by (induction m; auto). now rewrite E.
Qed.

Lemma insert_by_ext {A} (f g : A -> A -> comparison) x l : (forall y, In y l -> f x y = g x y) -> insert_by f x l = insert_by g x l.
Proof.
  induction l as [|y l IH]; intros H; cbn [insert_by]; [reflexivity|]. rewrite H by now left. destruct (g x y); try reflexivity.
  f_equal. apply IH. intros z Hz. apply H. now right.
Qed.
Lemma sort_by_ext {A} (f g : A -> A -> comparison) l : (forall x y, In x l -> In y l -> f x y = g x y) -> sort_by f l = sort_by g l.
Proof.
  induction l as [|x l IH]; intros H; [reflexivity|]. change (insert_by f x (sort_by f l) = insert_by g x (sort_by g l)). rewrite IH by (intros; apply H; now right).
  apply insert_by_ext. intros y Hy. apply H; [now left|right]. eapply Permutation_in; [apply Permutation_sym, sort_by_perm|exact Hy].
Qed.
Lemma sort_words n d l : Forall (fun c => good n c (wd c)) l -> Forall (fun c => c_dim c = Some d) l ->
  StronglySorted (fun a b => (wd a <= wd b)%N) (sort_by cell_cmp l).
Proof.
  intros HG HD. rewrite Forall_forall in HG, HD. rewrite (sort_by_ext cell_cmp (fun a b => N.compare (wd a) (wd b))) by (intros; eapply cmp_good; eauto).
  assert (HS : sorted_by (fun a b => N.compare (wd a) (wd b)) (sort_by (fun a b => N.compare (wd a) (wd b)) l)).
  { apply sort_by_sorted.
    - intros a b c H1 H2 H3. rewrite N.compare_gt_iff in H3. change (wd a <= wd b)%N in H1. change (wd b <= wd c)%N in H2. lia.
    - intros a b H. rewrite N.compare_gt_iff in H. intros H'. rewrite N.compare_gt_iff in H'. lia. }
  unfold sorted_by in HS. revert HS. generalize (sort_by (fun a b => N.compare (wd a) (wd b)) l). induction 1 as [|x t H IH F]; constructor; auto.
Qed.
Lemma dedup_spec n d l : Forall (fun c => good n c (wd c)) l -> Forall (fun c => c_dim c = Some d) l ->
  let r := dedup (sort_by cell_cmp l) in
  Forall (fun c => good n c (wd c)) r /\ StronglySorted (fun a b => (wd a < wd b)%N) r /\ (forall w, In w (map wd r) <-> In w (map wd l)).
Proof.
  intros HG HD r. pose proof (sort_words n d l HG HD) as HS. pose proof (sort_by_perm cell_cmp l) as HP. unfold r, dedup. clear r.
  assert (HG' : Forall (fun c => good n c (wd c)) (sort_by cell_cmp l)) by (eapply Permutation_Forall; eassumption).
  assert (HW : forall w, In w (map wd (sort_by cell_cmp l)) <-> In w (map wd l)).
  { intros w. split; apply Permutation_in; [apply Permutation_sym|]; now apply Permutation_map. }
  destruct (sort_by cell_cmp l) as [|x t]; [split; [constructor|split; [constructor|exact HW]]|].
  inversion HG' as [|? ? G1 G2]; subst. destruct (dedup_from_spec n t x G1 G2 HS) as (A & _ & C & D). split; [exact A|]. split; [exact C|].
  intros w. now rewrite D, HW.
Qed.

Lemma sorted_NoDup l : StronglySorted (fun a b => (wd a < wd b)%N) l -> NoDup (map wd l).
Proof.
  induction 1 as [|x t H IH F]; cbn; constructor; auto. intros Hx. apply in_map_iff in Hx. destruct Hx as (y & E & Hy).
  rewrite Forall_forall in F. specialize (F y Hy). lia.
Qed.

(** ** The words of the cells of one dimension *)
Section L.
  Context {T : Type}.
  Variables (labels : list T) (cov src : list (list T)) (K : cplx T).
  Hypothesis HI : Inv labels cov src K.
  Let n := length labels.
  Definition wcell (d : nat) (w : N) : Prop := (exists m, In m (words K) /\ wsub w m) /\ length (bits w) = S d.
  (** [l] represents the cells of dimension [d]. *)
  Definition level (d : nat) (l : list cell) : Prop :=
    Forall (fun c => good n c (wd c)) l /\ NoDup (map wd l) /\ forall w, In w (map wd l) <-> wcell d w.

  Lemma word64 m : In m (words K) -> (m < 2 ^ 64)%N.
  Proof. intros H. destruct (word_lt _ _ _ _ m HI H) as [A _]. apply (wlt_mono m n 64); [exact A|]. pose proof (I_small _ _ _ _ HI). fold n in H0. lia. Qed.
  Lemma wcell_lt d w : wcell d w -> (w < 2 ^ N.of_nat n)%N.
  Proof.
    intros [(m & Hm & Hs) _]. destruct (word_lt _ _ _ _ m HI Hm) as [A _]. apply tb_wlt. intros i Hi. destruct (tb w i) eqn:E; [|reflexivity].
    apply Hs in E. pose proof (wlt_tb _ _ _ A Hi). congruence.
  Qed.
  Lemma n_small : n <= 64. Proof. apply (I_small _ _ _ _ HI). Qed.
  Lemma wcell_lt64 d w : wcell d w -> (w < 2 ^ 64)%N.
  Proof. intros H. apply (wlt_mono w n 64); [eapply wcell_lt; exact H|]. pose proof n_small. lia. Qed.
  Lemma max_good c : In c (k_max K) -> good n c (wd c).
  Proof. intros H. pose proof (I_good _ _ _ _ HI) as HG. rewrite Forall_forall in HG. now apply HG. Qed.
  Lemma words_map : words K = map wd (k_max K). Proof. reflexivity. Qed.
  Lemma words_NoDup : NoDup (words K).
  Proof. apply NoDup_nth_error. intros i j Hi E. destruct (nth_error (words K) i) as [w|] eqn:E1; [|apply nth_error_None in E1; lia].
    eapply (I_anti _ _ _ _ HI); [exact E1|symmetry; exact E|apply wsub_refl]. Qed.

  Lemma omap_dims i : omapM (fun c => do d <- c_dim c; Some (d =? i, c)) (k_max K) =
    Some (map (fun c => (length (bits (wd c)) - 1 =? i, c)) (k_max K)).
  Proof. apply omapM_some. intros c Hc. apply max_good in Hc. destruct Hc as (_ & _ & _ & _ & _ & ->). reflexivity. Qed.
  Lemma filter_fst {A} (f : A -> bool) (l : list A) : map snd (filter fst (map (fun c => (f c, c)) l)) = filter f l.
  Proof. induction l as [|x l IH]; cbn; [reflexivity|]. destruct (f x); cbn; now rewrite IH. Qed.
  Definition max_of_dim (i : nat) : list cell := filter (fun c => length (bits (wd c)) - 1 =? i) (k_max K).

  Lemma max_of_dim_wcell i c : In c (max_of_dim i) -> wcell i (wd c).
  Proof.
    intros H. apply filter_In in H. destruct H as [H1 H2]. apply Nat.eqb_eq in H2. pose proof (good_pos _ _ _ (max_good c H1)). split; [|lia].
    exists (wd c). split; [rewrite words_map; now apply in_map|apply wsub_refl].
  Qed.

  Lemma top_level d : cplx_dim K = Some d -> exists l, get_i_cells K d None = Some l /\ level d l.
  Proof.
    intros Hd. unfold get_i_cells. rewrite omap_dims. cbn [obind]. rewrite (filter_fst (fun c => length (bits (wd c)) - 1 =? d)). eexists. split; [reflexivity|].
    fold (max_of_dim d). split; [|split].
    - apply Forall_forall. intros c Hc. apply filter_In in Hc. now apply max_good.
    - unfold max_of_dim. assert (HN := words_NoDup). rewrite words_map in HN. revert HN. generalize (k_max K). induction l as [|x l IH]; intros HN; [constructor|].
      inversion HN as [|? ? Hn HN']; subst. cbn [filter]. destruct (_ =? d); [|now apply IH]. cbn [map]. constructor; [|now apply IH].
      intros H. apply in_map_iff in H. destruct H as (y & E & Hy). apply filter_In in Hy. apply Hn. rewrite <- E. now apply in_map.
    - intros w. split.
      + intros H. apply in_map_iff in H. destruct H as (c & <- & Hc). now apply max_of_dim_wcell.
      + intros Hw. pose proof (wcell_lt64 _ _ Hw) as H64. destruct Hw as [(m & Hm & Hs) HL]. rewrite words_map in Hm. apply in_map_iff in Hm. destruct Hm as (c & Ec & Hc).
        assert (Hle : length (bits m) - 1 <= d).
        { unfold cplx_dim in Hd. destruct (k_max K) as [|a l] eqn:E; [destruct Hc|]. apply (f_equal (fun o => match o with Some x => x | None => 0 end)) in Hd. cbv beta iota in Hd.
          assert (HX : length (bits m) - 1 <= list_max (map (fun c => match c_dim c with Some d => d | None => 0 end) (a :: l))).
          { assert (H := proj1 (list_max_le (map (fun c => match c_dim c with Some d => d | None => 0 end) (a :: l)) _) (Nat.le_refl _)). rewrite Forall_forall in H. apply H.
            apply in_map_iff. exists c. split; [|exact Hc]. rewrite <- E in Hc. apply max_good in Hc. destruct Hc as (_ & _ & _ & _ & _ & ->). now rewrite Ec. }
          lia. }
        assert (w = m). { apply wsub_eq_len; [exact H64|subst m; eapply good_lt64; now apply max_good|exact Hs|lia]. }
        subst w. apply in_map_iff. exists c. split; [exact Ec|]. apply filter_In. split; [exact Hc|]. apply Nat.eqb_eq. rewrite Ec. lia.
  Qed.

  Lemma omap_faces d up : level (S d) up -> omapM get_face up =
    Some (map (fun c => map (fun x => Cell (pad (length (c_v c) - 1) (wclear (wd c) x)) (c_size c) (Some d)) (bits (wd c))) up).
  Proof.
    intros (HG & _ & HW). apply omapM_some. intros c Hc. rewrite Forall_forall in HG.
    assert (HL : length (bits (wd c)) = S (S d)) by (apply HW; now apply in_map).
    rewrite (get_face_good n c (wd c)) by (auto; lia). replace (length (bits (wd c)) - 2) with d by lia. reflexivity.
  Qed.
  Lemma set_bit w x : (w < 2 ^ 64)%N -> x < 64 -> tb w x = false ->
    exists w', (forall i, tb w' i = tb w i || (i =? x)) /\ wclear w' x = w /\ (w' < 2 ^ 64)%N.
  Proof.
    intros Hw Hx Hn. exists (N.lor w (mask x)). assert (H : forall i, tb (N.lor w (mask x)) i = tb w i || (i =? x)) by (intros i; now rewrite tb_lor, tb_mask).
    assert (H64 : (N.lor w (mask x) < 2 ^ 64)%N).
    { apply (lor_lt w (mask x) 64); [exact Hw|]. apply tb_wlt. intros i Hi. rewrite tb_mask by assumption. lia. }
    split; [exact H|]. split; [|exact H64]. apply tb_ext. intros i. rewrite tb_wclear by assumption. rewrite H. destruct (Nat.eqb_spec i x) as [->|]; [rewrite Hn; reflexivity|].
    rewrite orb_false_r. cbn. now rewrite andb_true_r.
  Qed.

  Lemma next_level d up : level (S d) up -> exists l, get_i_cells K d (Some up) = Some l /\ level d l /\
    StronglySorted (fun a b => (wd a < wd b)%N) l.
  Proof.
    intros HL. unfold get_i_cells. rewrite omap_dims. cbn [obind]. rewrite (filter_fst (fun c => length (bits (wd c)) - 1 =? d)). fold (max_of_dim d).
    rewrite (omap_faces d up HL). cbn [obind]. eexists. split; [reflexivity|]. destruct HL as (HG & HN & HW).
    set (F := concat _). 
    assert (HF : forall c, In c F <-> exists u x, In u up /\ tb (wd u) x = true /\ c = Cell (pad (length (c_v u) - 1) (wclear (wd u) x)) (c_size u) (Some d)).
    { intros c. unfold F. rewrite <- flat_map_concat_map, in_flat_map. rewrite Forall_forall in HG. split.
      - intros (u & Hu & Hc). apply in_map_iff in Hc. destruct Hc as (x & <- & Hx). exists u, x. split; [exact Hu|]. split; [|reflexivity].
        apply (proj1 (in_bits (wd u) x (good_lt64 _ _ _ (HG u Hu)))). exact Hx.
      - intros (u & x & Hu & Hx & ->). exists u. split; [exact Hu|]. apply in_map_iff. exists x. split; [reflexivity|].
        apply (proj2 (in_bits (wd u) x (good_lt64 _ _ _ (HG u Hu)))). exact Hx. }
    rewrite Forall_forall in HG.
    assert (HFg : forall c, In c F -> good n c (wd c) /\ c_dim c = Some d).
    { intros c Hc. apply HF in Hc. destruct Hc as (u & x & Hu & Hx & ->). split; [|reflexivity]. unfold pad; cbn [wd hd c_v].
      assert (HLu : length (bits (wd u)) = S (S d)) by (apply HW; now apply in_map).
      pose proof (face_good n u (wd u) x (length (c_v u) - 1) (HG u Hu) ltac:(lia) Hx) as H. replace (length (bits (wd u)) - 2) with d in H by lia. exact H. }
    assert (HM : forall c, In c (max_of_dim d) -> good n c (wd c) /\ c_dim c = Some d).
    { intros c Hc. apply filter_In in Hc. destruct Hc as [Hc1 Hc2]. split; [now apply max_good|]. apply max_good in Hc1. destruct Hc1 as (_ & _ & _ & _ & _ & ->).
      f_equal. now apply Nat.eqb_eq. }
    assert (HA : forall c, In c (max_of_dim d ++ F) -> good n c (wd c) /\ c_dim c = Some d) by (intros c Hc; apply in_app_or in Hc; destruct Hc; auto).
    destruct (dedup_spec n d (max_of_dim d ++ F)) as (A & B & C); [apply Forall_forall; intros c Hc; now apply HA|apply Forall_forall; intros c Hc; now apply HA|].
    split; [|exact B]. split; [exact A|]. split; [now apply sorted_NoDup|]. intros w. rewrite C, map_app, in_app_iff. split.
    - intros [H|H]; apply in_map_iff in H; destruct H as (c & <- & Hc); [now apply max_of_dim_wcell|].
      apply HF in Hc. destruct Hc as (u & x & Hu & Hx & ->). unfold pad; cbn [wd hd c_v]. pose proof (HG u Hu) as Hgu. pose proof (good_lt64 _ _ _ Hgu) as H64.
      assert (Hcu : wcell (S d) (wd u)) by (apply HW; now apply in_map). destruct Hcu as [(m & Hm & Hs) HLu]. split.
      + exists m. split; [exact Hm|]. eapply wsub_trans; [|exact Hs]. apply wsub_wclear; [exact H64|]. apply (tb_true_lt (wd u) 64); assumption.
      + rewrite wclear_len by assumption. lia.
    - intros Hw. pose proof (wcell_lt64 _ _ Hw) as H64. pose proof Hw as [(m & Hm & Hs) HLw]. pose proof (word64 m Hm) as Hm64.
      rewrite words_map in Hm. apply in_map_iff in Hm. destruct Hm as (c & Ec & Hc).
      destruct (Nat.le_gt_cases (length (bits m)) (S d)) as [Hle|Hgt].
      + left. assert (w = m) by (apply wsub_eq_len; auto; lia). subst w. apply in_map_iff. exists c. split; [exact Ec|]. apply filter_In. split; [exact Hc|]. apply Nat.eqb_eq. rewrite Ec. lia.
      + right. assert (HX : exists x, tb m x = true /\ tb w x = false).
        { destruct (existsb (fun x => negb (tb w x)) (bits m)) eqn:E.
          - apply existsb_exists in E. destruct E as (x & H1 & H2). exists x. split; [now apply (proj1 (in_bits m x Hm64))|]. now apply negb_true_iff.
          - exfalso. assert (wsub m w).
            { intros i Hi. destruct (tb w i) eqn:Ei; [reflexivity|]. assert (existsb (fun x => negb (tb w x)) (bits m) = true); [|congruence].
              apply existsb_exists. exists i. split; [now apply (proj2 (in_bits m i Hm64))|]. now rewrite Ei. }
            pose proof (wsub_len m w Hm64 H64 H). lia. }
        destruct HX as (x & Hx1 & Hx2). assert (Hx : x < 64) by (apply (tb_true_lt m 64); assumption).
        destruct (set_bit w x H64 Hx Hx2) as (w' & Hb & Hcl & H64').
        assert (Hb' : tb w' x = true) by (rewrite Hb, Nat.eqb_refl; apply orb_true_r).
        assert (Hw' : wcell (S d) w').
        { split.
          - exists m. split; [rewrite words_map; apply in_map_iff; eauto|]. intros i Hi. rewrite Hb in Hi. apply orb_true_iff in Hi. destruct Hi as [Hi|Hi]; [now apply Hs|].
            apply Nat.eqb_eq in Hi. now subst.
          - pose proof (wclear_len w' x H64' Hb') as E. rewrite Hcl, HLw in E. lia. }
        apply HW in Hw'. apply in_map_iff in Hw'. destruct Hw' as (u & Eu & Hu). apply in_map_iff. exists (Cell (pad (length (c_v u) - 1) (wclear (wd u) x)) (c_size u) (Some d)).
        split; [unfold pad; cbn [wd hd c_v]; rewrite Eu; exact Hcl|]. apply HF. exists u, x. split; [exact Hu|]. split; [rewrite Eu; exact Hb'|reflexivity].
  Qed.
End L.
