(** Cells as lists of labels. *)
From Coq Require Import List Arith ZArith NArith Bool Lia ZifyBool ZifyNat ZifyN Permutation Sorted.
From Verif Require Import UtilModel UtilSpec UtilProofs PidModel LinModel LinSpec LinProofs MatModel MatProofs SnfModel SimpModel SimpSpec SimpProofs SimpProofs2 SimpProofs3.
Import ListNotations.
Open Scope nat_scope.

Lemma subseq_incl {A} (a b : list A) : subseq a b -> incl a b.
Proof. induction 1 as [|x a b H IH|x a b H IH]; intros y Hy; [exact Hy|right; now apply IH|]. destruct Hy as [<-|Hy]; [now left|right; now apply IH]. Qed.
Lemma subseq_filter {A} (f : A -> bool) l : subseq (filter f l) l.
Proof. induction l as [|x l IH]; cbn; [constructor|]. destruct (f x); now constructor. Qed.
Lemma subseq_map {A B} (f : A -> B) a b : subseq a b -> subseq (map f a) (map f b).
Proof. induction 1; cbn; now constructor. Qed.
Lemma subseq_NoDup {A} (a b : list A) : subseq a b -> NoDup b -> NoDup a.
Proof.
  induction 1 as [|x a b H IH|x a b H IH]; intros HN; [exact HN| |]; inversion HN as [|? ? Hn HN']; subst; [now apply IH|].
  constructor; [|now apply IH]. intros Hx. apply Hn. eapply subseq_incl; eassumption.
Qed.

Definition Ent {T} (labels : list T) (w : N) : list (nat * T) := filter (fun ix => tb w (fst ix)) (combine (seq 0 (length labels)) labels).
Definition pick {T} (labels : list T) (w : N) : list T := map snd (Ent labels w).

Lemma map_fst_filter {A B} (f : A -> bool) : forall (a : list A) (b : list B), length a = length b -> map fst (filter (fun ix => f (fst ix)) (combine a b)) = filter f a.
Proof. induction a as [|x a IH]; intros [|y b] H; cbn in *; try discriminate; [reflexivity|]. injection H as H. destruct (f x); cbn; now rewrite IH. Qed.
Lemma map_snd_filter {A B} (f : B -> bool) : forall (a : list A) (b : list B), length a = length b -> map snd (filter (fun ix => f (snd ix)) (combine a b)) = filter f b.
Proof. induction a as [|x a IH]; intros [|y b] H; cbn in *; try discriminate; [reflexivity|]. injection H as H. destruct (f y); cbn; now rewrite IH. Qed.
Lemma map_snd_combine {A B} : forall (a : list A) (b : list B), length a = length b -> map snd (combine a b) = b.
Proof. induction a as [|x a IH]; intros [|y b] H; cbn in *; try discriminate; [reflexivity|]. injection H as H. now rewrite IH. Qed.
Lemma in_combine_seq {A} (l : list A) : forall k i x, In (i, x) (combine (seq k (length l)) l) <-> k <= i /\ nth_error l (i - k) = Some x.
Proof.
  induction l as [|y l IH]; intros k i x; cbn [length seq combine In]; [split; [intros []|intros [_ H]; destruct (i - k); discriminate]|].
  rewrite IH. split.
  - intros [E|[H1 H2]]; [injection E as <- <-; split; [lia|]; rewrite Nat.sub_diag; reflexivity|]. split; [lia|]. replace (i - k) with (S (i - S k)) by lia. exact H2.
  - intros [H1 H2]. destruct (Nat.eq_dec i k) as [->|NE]; [left; rewrite Nat.sub_diag in H2; cbn in H2; congruence|right].
    split; [lia|]. replace (i - k) with (S (i - S k)) in H2 by lia. exact H2.
Qed.
Lemma in_Ent {T} (labels : list T) w i x : In (i, x) (Ent labels w) <-> nth_error labels i = Some x /\ tb w i = true.
Proof. unfold Ent. rewrite filter_In, in_combine_seq, Nat.sub_0_r. cbn [fst]. intuition lia. Qed.
Lemma bits_split w n : (w < 2 ^ N.of_nat n)%N -> n <= 64 -> bits w = filter (tb w) (seq 0 n).
Proof.
  intros Hw Hn. unfold bits. replace 64 with (n + (64 - n)) at 1 by lia. rewrite seq_app, filter_app. cbn [plus].
  assert (E : filter (tb w) (seq n (64 - n)) = []); [|rewrite E; apply app_nil_r].
  destruct (filter (tb w) (seq n (64 - n))) as [|x l] eqn:E; [reflexivity|]. assert (H : In x (x :: l)) by now left. rewrite <- E in H.
  apply filter_In in H. destruct H as [H1 H2]. apply in_seq in H1. pose proof (tb_true_lt _ _ _ Hw H2). lia.
Qed.

Section P.
  Context {T : Type}.
  Variable labels : list T.
  Hypothesis ND : NoDup labels.
  Let n := length labels.
  Hypothesis Hn : n <= 64.

  Lemma nth_inj i j x : nth_error labels i = Some x -> nth_error labels j = Some x -> i = j.
  Proof. intros H1 H2. pose proof ND as H. rewrite NoDup_nth_error in H. apply H; [apply nth_error_Some; congruence|congruence]. Qed.
  Lemma fst_Ent w : (w < 2 ^ N.of_nat n)%N -> map fst (Ent labels w) = bits w.
  Proof. intros Hw. unfold Ent. rewrite (map_fst_filter (tb w)) by now rewrite seq_length. symmetry. apply bits_split; [exact Hw|lia]. Qed.
  Lemma pick_len w : (w < 2 ^ N.of_nat n)%N -> length (pick labels w) = length (bits w).
  Proof. intros Hw. rewrite <- (fst_Ent w Hw). unfold pick. now rewrite !map_length. Qed.
  Lemma in_pick w x : In x (pick labels w) <-> exists i, nth_error labels i = Some x /\ tb w i = true.
  Proof.
    unfold pick. rewrite in_map_iff. split.
    - intros ((i & y) & E & H). cbn in E. subst y. exists i. now apply in_Ent.
    - intros (i & H). exists (i, x). split; [reflexivity|now apply in_Ent].
  Qed.
  Lemma pick_subseq w : subseq (pick labels w) labels.
  Proof.
    unfold pick, Ent. rewrite <- (map_snd_combine (seq 0 (length labels)) labels) at 3 by now rewrite seq_length. apply subseq_map, subseq_filter.
  Qed.
  Lemma pick_NoDup w : NoDup (pick labels w).
  Proof. eapply subseq_NoDup; [apply pick_subseq|exact ND]. Qed.
  Lemma pick_inj w w' : (w < 2 ^ N.of_nat n)%N -> (w' < 2 ^ N.of_nat n)%N -> pick labels w = pick labels w' -> w = w'.
  Proof.
    assert (G : forall w w', (w < 2 ^ N.of_nat n)%N -> pick labels w = pick labels w' -> wsub w w').
    { intros u u' Hu E i Hi. pose proof (tb_true_lt _ _ _ Hu Hi) as Hlt. destruct (nth_error labels i) as [x|] eqn:Ex; [|apply nth_error_None in Ex; fold n in Ex; lia].
      assert (In x (pick labels u')) as Hx by (rewrite <- E; apply in_pick; eauto). apply in_pick in Hx. destruct Hx as (j & Hj & Hb). now rewrite (nth_inj i j x). }
    intros H1 H2 E. apply wsub_antisym; [now apply G|]. apply G; [assumption|now symmetry].
  Qed.
  Lemma word_of (p : nat -> bool) : exists w, (w < 2 ^ N.of_nat n)%N /\ forall i, i < n -> tb w i = p i.
  Proof.
    clear ND. revert Hn. generalize n. intros k Hk. clear n. induction k as [|k IH]; [exists 0%N; split; [reflexivity|intros; lia]|].
    destruct IH as (w & Hw & H); [lia|]. destruct (p k) eqn:E.
    - exists (N.lor w (mask k)). assert (HB : forall i, tb (N.lor w (mask k)) i = tb w i || (i =? k)) by (intros i; rewrite tb_lor, tb_mask by lia; reflexivity). split.
      + apply tb_wlt. intros i Hi. rewrite HB. rewrite (wlt_tb w k i Hw) by lia. lia.
      + intros i Hi. rewrite HB. destruct (Nat.eqb_spec i k) as [->|NE]; [now rewrite orb_true_r|]. rewrite orb_false_r. apply H. lia.
    - exists w. split; [eapply wlt_mono; [exact Hw|lia]|]. intros i Hi. destruct (Nat.eq_dec i k) as [->|NE]; [rewrite E; apply (wlt_tb w k k Hw); lia|]. apply H. lia.
  Qed.
  Variable eqb : T -> T -> bool.
  Hypothesis eqb_spec : forall x y, eqb x y = true <-> x = y.
  Lemma subseq_is_filter : forall (c l : list T), subseq c l -> NoDup l -> filter (fun x => existsb (eqb x) c) l = c.
  Proof.
    assert (EX : forall x c, existsb (eqb x) c = true <-> In x c).
    { intros x c. rewrite existsb_exists. split; [intros (y & H & E); apply eqb_spec in E; now subst|intros H; exists x; split; [assumption|now apply eqb_spec]]. }
    induction 1 as [|x a b H IH|x a b H IH]; intros HN; [reflexivity| |]; inversion HN as [|? ? Hn' HN']; subst; cbn [filter].
    - destruct (existsb (eqb x) a) eqn:E; [|now apply IH]. apply EX in E. exfalso. apply Hn'. eapply subseq_incl; eassumption.
    - replace (existsb (eqb x) (x :: a)) with true by (symmetry; apply EX; now left). f_equal. transitivity (filter (fun x => existsb (eqb x) a) b); [apply filter_ext_in|exact (IH HN')].
      intros y Hy. destruct (existsb (eqb y) a) eqn:E; [apply EX in E; apply EX; now right|]. destruct (existsb (eqb y) (x :: a)) eqn:E2; [|reflexivity].
      apply EX in E2. destruct E2 as [<-|E2]; [contradiction|]. apply EX in E2. congruence.
  Qed.
  Lemma pick_pred w (f : T -> bool) : (forall i x, nth_error labels i = Some x -> tb w i = f x) -> pick labels w = filter f labels.
  Proof.
    intros H. unfold pick, Ent. rewrite <- (map_snd_filter f (seq 0 (length labels)) labels) by now rewrite seq_length. f_equal.
    apply filter_ext_in. intros [i x] Hi. apply in_combine_seq in Hi. rewrite Nat.sub_0_r in Hi. cbn. now apply H.
  Qed.
  Lemma pick_surj c : subseq c labels -> exists w, (w < 2 ^ N.of_nat n)%N /\ pick labels w = c.
  Proof.
    intros Hc. destruct (word_of (fun i => match nth_error labels i with Some x => existsb (eqb x) c | None => false end)) as (w & Hw & H).
    exists w. split; [exact Hw|]. rewrite (pick_pred w (fun x => existsb (eqb x) c)); [now apply subseq_is_filter|].
    intros i x Hx. rewrite H by (apply nth_error_Some; congruence). now rewrite Hx.
  Qed.
  Lemma removed_filter {A} (l : list (nat * A)) k x : NoDup (map fst l) -> nth_error (map fst l) k = Some x ->
    filter (fun p => negb (fst p =? x)) l = removed k l.
  Proof.
    revert k. induction l as [|[i a] l IH]; intros k HN Hk; [destruct k; discriminate|]. cbn [map fst] in HN, Hk. inversion HN as [|? ? Hni HN']; subst.
    destruct k as [|k]; cbn [nth_error] in Hk.
    - injection Hk as ->. cbn [filter fst]. rewrite Nat.eqb_refl. cbn [negb]. unfold removed. cbn [firstn skipn app]. apply filter_all.
      intros [j b] Hj. cbn. destruct (Nat.eqb_spec j x) as [->|]; [|reflexivity]. exfalso. apply Hni. apply in_map_iff. exists (x, b). auto.
    - cbn [filter fst]. assert (i <> x). { intros ->. apply Hni. eapply nth_error_In. exact Hk. } destruct (Nat.eqb_spec i x); [contradiction|]. cbn [negb].
      unfold removed. cbn [firstn skipn app]. f_equal. now apply IH.
  Qed.
  Lemma pick_removed w k x : (w < 2 ^ N.of_nat n)%N -> nth_error (bits w) k = Some x -> pick labels (wclear w x) = removed k (pick labels w).
  Proof.
    intros Hw Hk. assert (H64 : (w < 2 ^ 64)%N) by (apply (wlt_mono w n 64); [assumption|lia]).
    assert (Hx : tb w x = true) by (apply (proj1 (in_bits w x H64)); eapply nth_error_In; exact Hk).
    assert (Hx64 : x < 64) by (apply (tb_true_lt w 64); assumption).
    assert (E : Ent labels (wclear w x) = removed k (Ent labels w)).
    { rewrite <- (removed_filter (Ent labels w) k x).
      - unfold Ent. clear Hk. generalize (combine (seq 0 (length labels)) labels). induction l as [|[i y] l IH]; [reflexivity|]. cbn [filter fst].
        rewrite tb_wclear by assumption. destruct (tb w i); cbn [andb]; [|exact IH]. cbn [filter fst]. destruct (negb (i =? x)); [f_equal|]; exact IH.
      - rewrite fst_Ent by assumption. apply bits_NoDup.
      - rewrite fst_Ent by assumption. exact Hk. }
    unfold pick. rewrite E. unfold removed. now rewrite map_app, firstn_map, skipn_map.
  Qed.
End P.

Section G.
  Context {T : Type}.
  Variable eqb : T -> T -> bool.
  Hypothesis eqb_spec : forall x y, eqb x y = true <-> x = y.
  Variables (labels : list T) (hist : list (list T)) (K : cplx T).
  Hypothesis HI : Inv labels hist hist K.
  Let n := length labels.
  Let ND : NoDup labels := I_nodup _ _ _ _ HI.
  Let Hn : n <= 64 := I_small _ _ _ _ HI.

  Lemma omapM_map {A B C} (f : B -> option C) (g : A -> B) l : omapM (fun x => f (g x)) l = omapM f (map g l).
  Proof. induction l as [|x l IH]; cbn; [reflexivity|]. now rewrite IH. Qed.

  Lemma get_simplex_good c w : good n c w -> get_simplex K c = Some (Simplex (length (bits w) - 1) (pick labels w)).
  Proof.
    intros Hg. pose proof Hg as (Ev & Hw0 & Hws & Hsz & _ & Ed). pose proof (good_lt _ _ _ Hg) as Hwn. unfold get_simplex.
    rewrite (omapM_some _ (fun i => (tb w i, i))).
    2:{ intros i Hi. apply in_seq in Hi. destruct (cell_new_spec (i + 1) [i]) as (p & v & Ep & Hp & _ & Hv); [lia|discriminate|constructor; [intros []|constructor]|constructor; [lia|constructor]|].
        rewrite Ep. cbn [obind]. f_equal. f_equal. pose proof (contains_good n (i + 1) c p w v Hg Hp) as Hc.
        assert (HB : forall j, tb v j = true <-> j = i) by (intros j; rewrite Hv; cbn; intuition).
        destruct (tb w i) eqn:Ei.
        - apply Hc. intros j Hj. apply HB in Hj. now subst.
        - destruct (cell_contains c p) eqn:Ec; [|reflexivity]. pose proof (proj1 Hc eq_refl) as Ec'. rewrite (Ec' i) in Ei; [discriminate|now apply HB]. }
    cbn [obind]. rewrite (omapM_map (nth_error (k_labels K)) snd). rewrite (I_labels _ _ _ _ HI).
    replace (map snd (filter fst (map (fun i => (tb w i, i)) (seq 0 (c_size c))))) with (bits w).
    2:{ rewrite filter_fst. apply bits_split; [exact Hws|]. fold n in Hn. lia. }
    rewrite <- (fst_Ent labels Hn w Hwn). rewrite <- (omapM_map (nth_error labels) fst).
    rewrite (omapM_some _ snd).
    - cbn [obind]. rewrite Ed. cbn [obind]. unfold pick. rewrite (fst_Ent labels Hn w Hwn). reflexivity.
    - intros [i x] Hi. apply in_Ent in Hi. cbn. tauto.
  Qed.

  Lemma is_cell_wcell d c : skeleton eqb hist = labels -> is_cell eqb hist d c <-> exists w, wcell K d w /\ pick labels w = c.
  Proof.
    intros Hsk. unfold is_cell. rewrite Hsk. split.
    - intros (Hs & Hl & s & Hin & Hinc). destruct (pick_surj labels ND Hn eqb eqb_spec c Hs) as (w & Hw & E). exists w. split; [|exact E]. split.
      + destruct (I_cov _ _ _ _ HI s Hin) as (m & Hm & HC). exists m. split; [exact Hm|]. intros i Hi.
        pose proof (tb_true_lt _ _ _ Hw Hi) as Hlt. destruct (nth_error labels i) as [x|] eqn:Ex; [|apply nth_error_None in Ex; lia].
        assert (In x c) as Hx by (rewrite <- E; apply in_pick; eauto). destruct (HC x (Hinc x Hx)) as (j & Hj & Hb). now rewrite (nth_inj labels ND i j x).
      + rewrite <- (pick_len labels Hn w Hw). now rewrite E.
    - intros (w & Hw & <-). pose proof (wcell_lt labels hist hist K HI d w Hw) as Hlt. split; [apply pick_subseq|]. split; [rewrite (pick_len labels Hn w Hlt); apply Hw|].
      destruct Hw as [(m & Hm & Hs) HL]. destruct (I_src _ _ _ _ HI m Hm) as (s & Hin & HS). exists s. split; [exact Hin|].
      intros x Hx. apply in_pick in Hx. destruct Hx as (i & Hi & Hb). destruct (HS i (Hs i Hb)) as (y & Hy & Hys). rewrite Hi in Hy. injection Hy as <-. exact Hys.
  Qed.

  Lemma level_lists d l : skeleton eqb hist = labels -> level labels K d l -> lists_cells eqb hist d (map (fun c => pick labels (wd c)) l).
  Proof.
    intros Hsk (HG & HN & HW). split.
    - rewrite <- map_map. assert (HF : Forall (fun w => (w < 2 ^ N.of_nat n)%N) (map wd l)).
      { apply Forall_forall. intros w Hw. apply in_map_iff in Hw. destruct Hw as (c & <- & Hc). rewrite Forall_forall in HG. eapply good_lt. now apply HG. }
      revert HN HF. generalize (map wd l). clear -ND Hn. induction l as [|w l IH]; intros HN HF; [constructor|].
      inversion HN as [|? ? Hni HN']; subst. inversion HF as [|? ? Hw HF']; subst. cbn [map]. constructor; [|now apply IH].
      intros H. apply in_map_iff in H. destruct H as (v & E & Hv). rewrite Forall_forall in HF'. apply (pick_inj labels ND Hn) in E; [subst; contradiction|now apply HF'|exact Hw].
    - intros c. rewrite (is_cell_wcell d c Hsk). rewrite in_map_iff. split.
      + intros (x & E & Hx). exists (wd x). split; [apply HW; now apply in_map|exact E].
      + intros (w & Hw & E). apply HW in Hw. apply in_map_iff in Hw. destruct Hw as (x & <- & Hx). eauto.
  Qed.

  Lemma NoDup_incl_filter s : NoDup s -> incl s labels -> length (filter (fun x => existsb (eqb x) s) labels) = length s.
  Proof.
    intros Hs Hi. apply Permutation_length, NoDup_Permutation; [apply NoDup_filter; exact ND|exact Hs|]. intros x. rewrite filter_In, (existsb_eqb eqb eqb_spec). split; [tauto|]. intros H. split; [now apply Hi|exact H].
  Qed.

  Lemma dim_spec d : valid_hist hist -> skeleton eqb hist = labels -> has_dim hist d -> cplx_dim K = Some d.
  Proof.
    intros HV Hsk [(s & Hs & Hl) Hmax]. unfold valid_hist in HV. rewrite Forall_forall in HV. destruct (HV s Hs) as [_ HsN].
    assert (Hsl : incl s labels).
    { rewrite <- Hsk. intros x Hx. unfold skeleton. change (fun acc x => if existsb (eqb x) acc then acc else acc ++ [x]) with (add_label eqb).
      apply (add_labels_in eqb eqb_spec). right. apply in_concat. eauto. }
    assert (Hc : is_cell eqb hist d (filter (fun x => existsb (eqb x) s) labels)).
    { split; [rewrite Hsk; apply subseq_filter|]. split; [rewrite (NoDup_incl_filter s HsN Hsl); exact Hl|]. exists s. split; [exact Hs|]. intros x Hx. apply filter_In in Hx. now apply (existsb_eqb eqb eqb_spec). }
    apply (is_cell_wcell d _ Hsk) in Hc. destruct Hc as (w & Hw & _). pose proof (wcell_lt64 labels hist hist K HI d w Hw) as H64. destruct Hw as [(m & Hm & Hsub) HL].
    pose proof (word64 labels hist hist K HI m Hm) as Hm64. pose proof (wsub_len w m H64 Hm64 Hsub) as Hle.
    assert (HD : map (fun c => match c_dim c with Some d => d | None => 0 end) (k_max K) = map (fun c => length (bits (wd c)) - 1) (k_max K)).
    { apply map_ext_in. intros c Hc. apply (max_good labels hist hist K HI) in Hc. destruct Hc as (_ & _ & _ & _ & _ & ->). reflexivity. }
    assert (Hub : forall c, In c (k_max K) -> length (bits (wd c)) - 1 <= d).
    { intros c Hc. assert (Hcw : In (wd c) (words K)) by (rewrite words_map; now apply in_map). destruct (I_src _ _ _ _ HI _ Hcw) as (t & Ht & HS).
      assert (Hg := max_good labels hist hist K HI c Hc). pose proof (good_lt _ _ _ Hg) as Hlt. rewrite <- (pick_len labels Hn _ Hlt).
      assert (length (pick labels (wd c)) <= length t); [|specialize (Hmax t Ht); lia].
      apply NoDup_incl_length; [now apply pick_NoDup|]. intros x Hx. apply in_pick in Hx. destruct Hx as (i & Hi & Hb). destruct (HS i Hb) as (y & Hy & Hyt). congruence. }
    unfold cplx_dim. destruct (k_max K) as [|a l] eqn:E; [rewrite words_map, E in Hm; destruct Hm|]. rewrite <- E in *. f_equal. rewrite HD.
    apply Nat.le_antisymm.
    - apply list_max_le, Forall_forall. intros y Hy. apply in_map_iff in Hy. destruct Hy as (c & <- & Hc). now apply Hub.
    - rewrite words_map in Hm. apply in_map_iff in Hm. destruct Hm as (c & Ec & Hc).
      assert (H := proj1 (list_max_le (map (fun c => length (bits (wd c)) - 1) (k_max K)) _) (Nat.le_refl _)). rewrite Forall_forall in H.
      specialize (H (length (bits m) - 1)). etransitivity; [|apply H; apply in_map_iff; exists c; split; [now rewrite Ec|exact Hc]]. lia.
  Qed.
End G.
