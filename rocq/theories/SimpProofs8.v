(** [n_cells_of_dim]: the inclusion-exclusion loop. *)
From Coq Require Import List Arith ZArith NArith Bool Lia ZifyBool ZifyNat ZifyN Permutation Sorted.
From Verif Require Import UtilModel UtilSpec UtilProofs UtilProofs2 PidModel LinModel LinSpec LinProofs MatModel MatProofs SnfModel SimpModel SimpSpec SimpProofs SimpProofs2 SimpProofs3 SimpProofs4 SimpProofs5 SimpProofs7.
Import ListNotations.
Open Scope nat_scope.

Lemma subseq_trans {A} (a b c : list A) : subseq a b -> subseq b c -> subseq a c.
Proof.
  intros H1 H2. revert a H1. induction H2 as [|x b c H IH|x b c H IH]; intros a H1; [exact H1|constructor; now apply IH|].
  inversion H1; subst; [apply sub_skip|apply sub_keep]; now apply IH.
Qed.
Lemma subseq_nil {A} (l : list A) : subseq [] l. Proof. induction l; constructor; assumption. Qed.
Lemma subseq_firstn {A} (l : list A) : forall k, subseq (firstn k l) l.
Proof. induction l as [|x l IH]; intros [|k]; try apply subseq_nil. cbn [firstn]. apply sub_keep, IH. Qed.

Lemma nil_or {A} (l : list A) : l = [] \/ exists x, In x l.
Proof. destruct l as [|x l]; [now left|right; exists x; now left]. Qed.

Definition full : N := (2 ^ 64 - 1)%N.
Definition dd (w : N) : option nat := match length (bits w) with O => None | S d => Some d end.
Definition meetw (w0 : N) (S : list cell) : N := fold_left N.land (map wd S) w0.

Lemma full_bits i : tb full i = (i <? 64).
Proof.
  unfold full, tb. change (2 ^ 64 - 1)%N with (N.ones 64). destruct (Nat.ltb_spec i 64); [rewrite N.ones_spec_low; [reflexivity|lia]|rewrite N.ones_spec_high; [reflexivity|lia]].
Qed.
Lemma meetw_bits : forall S w0 i, tb (meetw w0 S) i = tb w0 i && forallb (fun m => tb (wd m) i) S.
Proof.
  induction S as [|c S IH]; intros w0 i; [now rewrite andb_true_r|]. unfold meetw in *. cbn [map fold_left forallb]. rewrite IH, tb_land. now rewrite andb_assoc.
Qed.
Lemma meetw_lt : forall S w0 k, (w0 < 2 ^ N.of_nat k)%N -> (meetw w0 S < 2 ^ N.of_nat k)%N.
Proof. intros S w0 k H. apply tb_wlt. intros i Hi. rewrite meetw_bits, (wlt_tb w0 k i H Hi). reflexivity. Qed.

Definition zl (m : nat) (S : list cell) : nat := fold_left (fun a c => Nat.min a (length (c_v c) - 1)) S m.
Lemma zipw_repeat {A} (f : N -> N -> A) x y : forall j k, zipw f (repeat x j) (repeat y k) = repeat (f x y) (Nat.min j k).
Proof. induction j as [|j IH]; intros [|k]; cbn; try reflexivity. now rewrite IH. Qed.
Lemma inter_step n m x c w0 s d0 : (w0 < 2 ^ 64)%N -> good n c (wd c) ->
  cell_inter (Cell (w0 :: repeat x m) s d0) c = Some (Cell (pad (Nat.min m (length (c_v c) - 1)) (N.land w0 (wd c))) s (dd (N.land w0 (wd c)))).
Proof.
  intros Hw ((k & Ec) & _). unfold cell_inter. cbn [c_v c_size]. rewrite Ec.
  assert (EL : length (pad k (wd c)) - 1 = k) by (unfold pad; cbn [length]; rewrite repeat_length; lia). rewrite EL. unfold pad at 1 2. cbn [zipw]. rewrite zipw_repeat, N.land_0_r.
  fold (pad (Nat.min m k) (N.land w0 (wd c))). rewrite cell_dim_one by (now apply land_lt). cbn [obind]. unfold dd. reflexivity.
Qed.
Lemma inter_fold n : forall S m w0 s d0, (w0 < 2 ^ 64)%N -> Forall (fun c => good n c (wd c)) S ->
  foldM cell_inter S (Cell (pad m w0) s d0) = Some (Cell (pad (zl m S) (meetw w0 S)) s (match S with [] => d0 | _ => dd (meetw w0 S) end)).
Proof.
  induction S as [|c S IH]; intros m w0 s d0 Hw HF; [reflexivity|]. inversion HF as [|? ? Hc HF']; subst. cbn [foldM]. unfold pad at 1. rewrite (inter_step n) by assumption. cbn [obind].
  rewrite IH by (try assumption; now apply land_lt). unfold meetw, dd, zl. cbn [map fold_left]. destruct S as [|c' S]; cbn [map fold_left]; reflexivity.
Qed.

Lemma inter_full n m x S w0 s d0 : (w0 < 2 ^ 64)%N -> Forall (fun c => good n c (wd c)) S -> S <> [] ->
  foldM cell_inter S (Cell (w0 :: repeat x m) s d0) = Some (Cell (pad (zl m S) (meetw w0 S)) s (dd (meetw w0 S))).
Proof.
  intros Hw HF HS. destruct S as [|c S]; [contradiction|]. inversion HF as [|? ? Hc HF']; subst. cbn [foldM]. rewrite (inter_step n) by assumption. cbn [obind].
  rewrite (inter_fold n) by (try assumption; now apply land_lt). unfold meetw, zl. cbn [map fold_left]. destruct S as [|c' S]; reflexivity.
Qed.

(** Arithmetic policies: a successful checked computation agrees with the exact one. *)
Definition exact_policy (c : Z -> option Z) : Prop := forall x y, c x = Some y -> y = x.
Lemma omapM_mono {A B} (f g : A -> option B) l r : (forall x y, f x = Some y -> g x = Some y) -> omapM f l = Some r -> omapM g l = Some r.
Proof.
  intros H. revert r. induction l as [|x l IH]; intros r E; cbn [omapM] in *; [exact E|]. destruct (f x) as [y|] eqn:Ex; [|discriminate]. cbn [obind] in E.
  destruct (omapM f l) as [t|] eqn:Et; [|discriminate]. rewrite (H x y Ex), (IH t eq_refl). exact E.
Qed.
Section Pol.
  Variables cu ci : Z -> option Z.
  Hypothesis Hu : exact_policy cu.
  Hypothesis Hi : exact_policy ci.
  Lemma fold_none l (f : Z -> Z -> Z) : fold_left (fun acc x => do p <- acc; cu (f p x)) l None = None.
  Proof. induction l as [|x l IH]; [reflexivity|exact IH]. Qed.
  Lemma fold_pol (f : Z -> Z -> Z) l : forall a r, fold_left (fun acc x => do p <- acc; cu (f p x)) l (Some a) = Some r ->
    fold_left (fun acc x => do p <- acc; ideal (f p x)) l (Some a) = Some r.
  Proof.
    induction l as [|x l IH]; intros a r H; [exact H|]. cbn [fold_left obind] in *. destruct (cu (f a x)) as [y|] eqn:E; [|rewrite fold_none in H; discriminate].
    apply Hu in E. subst y. unfold ideal at 2. now apply IH.
  Qed.
  Lemma binomial_pol x y r : binomial cu x y = Some r -> binomial ideal x y = Some r.
  Proof.
    unfold binomial. destruct (x <? y); [auto|]. unfold range_product. intros H.
    destruct (fold_left _ (zrange (Z.of_nat x - Z.of_nat y + 1) (Z.of_nat x + 1)) (Some 1%Z)) as [p|] eqn:E1; [|discriminate]. cbn [obind] in H.
    destruct (fold_left _ (zrange 1 (Z.of_nat y + 1)) (Some 1%Z)) as [q|] eqn:E2; [|discriminate]. cbn [obind] in H.
    rewrite (fold_pol Z.mul _ _ _ E1), (fold_pol Z.mul _ _ _ E2). exact H.
  Qed.
  Lemma ncells_pol {T} fuel (K : cplx T) dim : forall is sign out r, ncells_loop cu ci fuel K dim is sign out = Some r -> ncells_loop ideal ideal fuel K dim is sign out = Some r.
  Proof.
    induction is as [|i is IH]; intros sign out r H; [exact H|]. cbn [ncells_loop] in *. destruct (tuple_iter_collect fuel (k_max K) i) as [tu|]; [|discriminate]. cbn [obind] in *.
    destruct (omapM _ tu) as [all|] in *; [|discriminate]. cbn [obind] in *. destruct (filter _ all) as [|c0 cs]; [exact H|]. set (inter := c0 :: cs) in *.
    destruct (omapM (fun c => do d <- c_dim c; binomial cu (d + 1) (dim + 1)) inter) as [bs|] eqn:Eb; [|discriminate]. cbn [obind] in H.
    rewrite (omapM_mono _ (fun c => do d <- c_dim c; binomial ideal (d + 1) (dim + 1)) _ bs) with (2 := Eb).
    2:{ intros c y Hc. destruct (c_dim c); [|discriminate]. cbn [obind] in *. now apply binomial_pol. }
    cbn [obind]. destruct (fold_left _ bs (Some 0%Z)) as [sm|] eqn:Es; [|discriminate]. cbn [obind] in H. rewrite (fold_pol Z.add _ _ _ Es). cbn [obind].
    destruct (ci _) as [out'|] eqn:Eo; [|discriminate]. cbn [obind] in H. apply Hi in Eo. subst out'. unfold ideal at 1. cbn [obind]. now apply IH.
  Qed.
End Pol.

Section N.
  Context {T : Type}.
  Variables (labels : list T) (hist : list (list T)) (K : cplx T).
  Hypothesis HI : Inv labels hist hist K.
  Let n := length labels.
  Let M := k_max K.
  Variable dim : nat.
  Let U := combs (seq 0 n) (S dim).
  Let Hn : n <= 64 := I_small _ _ _ _ HI.
  Definition val (S : list cell) : Z := Cn (length (bits (meetw full S))) (dim + 1).
  Definition Esum (i : nat) : Z := lsum val (combs M i).
  Definition under (c : list nat) (m : cell) : bool := forallb (tb (wd m)) c.

  Lemma full_lt : (full < 2 ^ 64)%N. Proof. reflexivity. Qed.
  Lemma meet_lt_n S c : In c S -> incl S M -> (meetw full S < 2 ^ N.of_nat n)%N.
  Proof.
    intros Hc HS. apply tb_wlt. intros i Hi. rewrite meetw_bits. destruct (forallb (fun m => tb (wd m) i) S) eqn:E; [|apply andb_false_r]. rewrite forallb_forall in E. specialize (E c Hc).
    pose proof (good_lt _ _ _ (max_good labels hist hist K HI c (HS c Hc))) as Hlt. pose proof (wlt_tb _ _ _ Hlt Hi). congruence.
  Qed.
  Lemma val_count S c : In c S -> incl S M -> val S = lsum (fun u => if forallb (under u) S then 1%Z else 0%Z) U.
  Proof.
    intros Hc HS. pose proof (meet_lt_n S c Hc HS) as Hlt. unfold val. rewrite (bits_split (meetw full S) n Hlt) by lia. rewrite Nat.add_1_r, <- combs_len, <- combs_filter.
    rewrite lsum_indicator. f_equal. f_equal. apply filter_ext_in. intros u Hu. apply in_combs in Hu. destruct Hu as [Hu _]. apply subseq_seq_sorted in Hu. destruct Hu as [_ Hu].
    apply eq_iff_eq_true. rewrite !forallb_forall. split.
    - intros H m Hm. apply forallb_forall. intros i Hi. specialize (H i Hi). rewrite meetw_bits in H. apply andb_true_iff in H. destruct H as [_ H]. rewrite forallb_forall in H. now apply H.
    - intros H i Hi. rewrite meetw_bits, full_bits. apply andb_true_iff. split; [specialize (Hu i Hi); apply Nat.ltb_lt; lia|]. apply forallb_forall. intros m Hm. specialize (H m Hm).
      unfold under in H. rewrite forallb_forall in H. now apply H.
  Qed.
  Lemma Esum_Cn i : 0 < i -> Esum i = lsum (fun u => Cn (length (filter (under u) M)) i) U.
  Proof.
    intros H. unfold Esum. transitivity (lsum (fun S => lsum (fun u => if forallb (under u) S then 1%Z else 0%Z) U) (combs M i)).
    - apply lsum_ext. intros S HS. apply in_combs in HS. destruct HS as [HS HL]. destruct S as [|c S]; [cbn in HL; lia|]. apply (val_count _ c); [now left|]. now apply subseq_incl.
    - rewrite lsum_swap. apply lsum_ext. intros u Hu. rewrite lsum_indicator, combs_filter. apply combs_len.
  Qed.

  Lemma empty_val v : v = 0%N -> Cn (length (bits v)) (dim + 1) = 0%Z.
  Proof. intros ->. rewrite bits_0. cbn [length]. apply Cn_small. lia. Qed.
  Lemma larger_empty i j : i <= j -> (forall S, In S (combs M i) -> meetw full S = 0%N) -> Esum j = 0%Z.
  Proof.
    intros Hij H. apply lsum_zero. intros S HS. apply in_combs in HS. destruct HS as [HS HL]. apply empty_val. apply tb_ext. intros k. rewrite tb_0, meetw_bits.
    assert (HP : meetw full (firstn i S) = 0%N).
    { apply H. apply in_combs. split; [eapply subseq_trans; [apply subseq_firstn|exact HS]|]. rewrite firstn_length. lia. }
    pose proof (meetw_bits (firstn i S) full k) as E. rewrite HP, tb_0 in E. destruct (tb full k); [|reflexivity]. cbn [andb] in *. symmetry in E.
    destruct (forallb (fun m => tb (wd m) k) S) eqn:E2; [|reflexivity]. rewrite forallb_forall in E2. assert (forallb (fun m => tb (wd m) k) (firstn i S) = true); [|congruence].
    apply forallb_forall. intros m Hm. apply E2. rewrite <- (firstn_skipn i S). apply in_or_app. now left.
  Qed.

  Lemma fold_add_ideal l : forall a, fold_left (fun acc x => do s <- acc; ideal (s + x)%Z) l (Some a) = Some (a + lsum (fun x => x) l)%Z.
  Proof. induction l as [|x l IH]; intros a; cbn [fold_left lsum]; [f_equal; lia|]. cbn [obind]. unfold ideal at 2. rewrite IH. f_equal. lia. Qed.
  Lemma dd_val v : v <> 0%N -> (v < 2 ^ 64)%N -> exists d, dd v = Some d /\ d + 1 = length (bits v).
  Proof. intros H1 H2. unfold dd. destruct (length (bits v)) eqn:E; [exfalso; apply H1, bits_nil; [exact H2|]; now apply length_zero_iff_nil|]. exists n0. split; [reflexivity|lia]. Qed.

  Lemma size_words : repeat (2 ^ 64 - 1)%N (k_size K / 64 + 1) = full :: repeat full (k_size K / 64).
  Proof. replace (k_size K / 64 + 1) with (S (k_size K / 64)) by lia. reflexivity. Qed.

  (** One round. *)
  Definition fuel_ok (fuel i : nat) : Prop := exists R, Permutation R (combs M i) /\ tuple_iter_collect fuel M i = Some R.
  Lemma loop_spec fuel : forall r i sign out, 0 < i -> sign = Nat.odd i -> (forall j, i <= j < i + r -> fuel_ok fuel j) ->
    ncells_loop ideal ideal fuel K dim (seq i r) sign out = Some (out - lsum (fun j => alt j * Esum j)%Z (seq i r))%Z.
  Proof.
    induction r as [|r IH]; intros i sign out Hi Hs HF; [cbn [seq ncells_loop lsum]; f_equal; lia|].
    cbn [seq ncells_loop]. destruct (HF i) as (R & HP & ER); [lia|]. fold M. rewrite ER. cbn [obind]. rewrite size_words.
    assert (HR : forall S, In S R -> S <> [] /\ incl S M).
    { intros S HS. apply (Permutation_in _ HP) in HS. apply in_combs in HS. destruct HS as [HS HL]. split; [intros ->; cbn in HL; lia|now apply subseq_incl]. }
    rewrite (omapM_some _ (fun S => Cell (pad (zl (k_size K / 64) S) (meetw full S)) (k_size K) (dd (meetw full S)))).
    2:{ intros S HS. destruct (HR S HS) as [H1 H2]. apply (inter_full n); [exact full_lt| |exact H1]. apply Forall_forall; intros c Hc; apply (max_good labels hist hist K HI), H2, Hc. }
    cbn [obind]. rewrite filter_map_comm. rewrite (filter_ext _ (fun x => negb ((meetw full x =? 0)%N && true))).
    2:{ intros S. unfold cell_is_empty, pad. cbn [c_v forallb]. f_equal. f_equal. clear. induction (zl (k_size K / 64) S); cbn; auto. }
    set (Rn := filter (fun x => negb ((meetw full x =? 0)%N && true)) R).
    assert (HRn : lsum val Rn = Esum i).
    { unfold Rn. rewrite lsum_filter. unfold Esum. rewrite <- (lsum_perm _ _ _ HP). apply lsum_ext. intros S HS. destruct (N.eqb_spec (meetw full S) 0) as [E|]; [|reflexivity]. cbn [andb negb]. symmetry. now apply empty_val. }
    assert (Hnz : forall S, In S Rn -> meetw full S <> 0%N).
    { intros S HS. apply filter_In in HS. destruct HS as [_ HS]. destruct (N.eqb_spec (meetw full S) 0); [discriminate|assumption]. }
    destruct (map _ Rn) as [|c0 cs] eqn:EM.
    - assert (Hnil : forall S, In S (combs M i) -> meetw full S = 0%N).
      { intros S HS. destruct (N.eqb_spec (meetw full S) 0) as [E|NE]; [exact E|]. exfalso. assert (HSR : In S Rn).
        { apply filter_In. split; [eapply Permutation_in; [apply Permutation_sym; exact HP|exact HS]|]. destruct (N.eqb_spec (meetw full S) 0); [contradiction|reflexivity]. }
        destruct Rn; [destruct HSR|discriminate]. }
      f_equal. rewrite lsum_zero; [lia|]. intros j Hj. assert (i <= j) by (destruct Hj as [<-|Hj]; [lia|apply in_seq in Hj; lia]). rewrite (larger_empty i j) by assumption. lia.
    - rewrite <- EM. rewrite <- (omapM_map (fun c => do d <- c_dim c; binomial ideal (d + 1) (dim + 1)) (fun S => Cell (pad (zl (k_size K / 64) S) (meetw full S)) (k_size K) (dd (meetw full S)))).
      rewrite (omapM_some _ val).
      2:{ intros S HS. cbn [c_dim]. destruct (dd_val (meetw full S) (Hnz S HS) (meetw_lt S full 64 full_lt)) as (d & E1 & E2). rewrite E1. cbn [obind]. rewrite binomial_ideal. unfold val. now rewrite E2. }
      cbn [obind]. rewrite fold_add_ideal. cbn [obind]. rewrite lsum_map. change (lsum _ Rn) with (lsum val Rn). rewrite HRn. unfold ideal at 1. cbn [obind]. rewrite IH; [| lia | | ].
      + f_equal. cbn [lsum]. subst sign. unfold alt. rewrite <- Nat.negb_odd. destruct (Nat.odd i); cbn [negb]; lia.
      + subst sign. rewrite Nat.odd_succ, <- Nat.negb_odd. reflexivity.
      + intros j Hj. apply HF. lia.
  Qed.

  Theorem count_spec fuel : (forall j, 1 <= j <= length M -> fuel_ok fuel j) ->
    ncells_loop ideal ideal fuel K dim (seq 1 (length M)) true 0%Z = Some (Z.of_nat (length (filter (fun u => existsb (under u) M) U))).
  Proof.
    intros HF. rewrite loop_spec; [|lia|reflexivity|intros j Hj; apply HF; lia]. f_equal.
    transitivity (lsum (fun u => - lsum (fun j => alt j * Cn (length (filter (under u) M)) j) (seq 1 (length M)))%Z U).
    - rewrite lsum_opp. rewrite <- lsum_swap. rewrite Z.sub_0_l. f_equal. apply lsum_ext. intros j Hj. apply in_seq in Hj. rewrite Esum_Cn by lia. rewrite lsum_mul. reflexivity.
    - rewrite <- lsum_indicator. apply lsum_ext. intros u Hu. set (k := length (filter (under u) M)).
      assert (Hk : k <= length M) by (unfold k; clear; induction M as [|m l IH]; cbn; [lia|]; destruct (under u m); cbn; lia).
      pose proof (alt_row_all k (length M) Hk) as E. cbn [seq lsum] in E. rewrite Cn_0 in E. change (alt 0) with 1%Z in E.
      assert (Hex : existsb (under u) M = negb (k =? 0)).
      { unfold k. clear. induction M as [|m l IH]; [reflexivity|]. cbn [existsb filter]. destruct (under u m); [reflexivity|]. rewrite IH. reflexivity. }
      rewrite Hex. destruct (k =? 0); cbn [negb]; lia.
  Qed.

  Lemma fuel_exists : exists f0, forall fuel, f0 <= fuel -> forall j, 1 <= j <= length M -> fuel_ok fuel j.
  Proof.
    assert (G : forall m, exists f0, forall fuel, f0 <= fuel -> forall j, 1 <= j <= m -> fuel_ok fuel j).
    { induction m as [|m IH]; [exists 0; intros; lia|]. destruct IH as (f1 & H1). destruct (tuples_perm M (S m)) as (R & HP & f2 & H2); [lia|]. exists (Nat.max f1 f2).
      intros fuel Hf j Hj. destruct (Nat.eq_dec j (S m)) as [->|NE]; [exists R; split; [exact HP|apply H2; lia]|]. apply H1; lia. }
    apply G.
  Qed.

  Variable eqb : T -> T -> bool.
  Hypothesis eqb_spec : forall x y, eqb x y = true <-> x = y.
  Lemma count_cells L : skeleton eqb hist = labels -> lists_cells eqb hist dim L -> length (filter (fun u => existsb (under u) M) U) = length L.
  Proof.
    intros Hsk [LN LC]. destruct (nil_or labels) as [Hnil|(x0 & Hx0)].
    { unfold U, n. rewrite Hnil. cbn. destruct L as [|c L]; [reflexivity|]. exfalso. destruct (proj1 (LC c) (or_introl eq_refl)) as (Hs & Hl & _). rewrite Hsk, Hnil in Hs. inversion Hs; subst. discriminate. }
    pose (f := fun i => nth i labels x0). rewrite <- (map_length (map f)). apply Permutation_length, NoDup_Permutation; [|exact LN|].
    - apply NoDup_map_inj; [|apply NoDup_filter, combs_NoDup, seq_NoDup]. intros a b Ha Hb E. apply filter_In in Ha, Hb. destruct Ha as [Ha _], Hb as [Hb _]. apply in_combs in Ha, Hb. destruct Ha as [Ha _], Hb as [Hb _].
      apply subseq_seq_sorted in Ha, Hb. destruct Ha as [_ Ha], Hb as [_ Hb]. revert b Hb E. induction a as [|i a IH]; intros [|j b] Hb E; try discriminate; [reflexivity|]. cbn [map] in E. injection E as E1 E2.
      f_equal; [|apply IH; [intros k Hk; apply Ha; now right|intros k Hk; apply Hb; now right|exact E2]].
      specialize (Ha i (or_introl eq_refl)). specialize (Hb j (or_introl eq_refl)). pose proof (I_nodup _ _ _ _ HI) as ND. rewrite (NoDup_nth labels x0) in ND. apply ND; [fold n; lia|fold n; lia|exact E1].
    - intros c. rewrite LC. unfold is_cell. rewrite Hsk. assert (EU : map (map f) U = combs labels (S dim)) by (unfold U; rewrite <- combs_map; unfold f, n; now rewrite data_map).
      assert (Hund : forall u, In u U -> existsb (under u) M = true <-> exists s, In s hist /\ incl (map f u) s).
      { intros u Hu. apply in_combs in Hu. destruct Hu as [Hu _]. apply subseq_seq_sorted in Hu. destruct Hu as [_ Hu]. assert (Hnth : forall i, In i u -> nth_error labels i = Some (f i)) by (intros i Hi; apply nth_error_nth'; specialize (Hu i Hi); fold n; lia).
        rewrite existsb_exists. split.
        - intros (m & Hm & H). unfold under in H. rewrite forallb_forall in H. assert (Hw : In (wd m) (words K)) by (rewrite words_map; now apply in_map).
          destruct (I_src _ _ _ _ HI _ Hw) as (s & Hs & HS). exists s. split; [exact Hs|]. intros x Hx. apply in_map_iff in Hx. destruct Hx as (i & <- & Hi). destruct (HS i (H i Hi)) as (y & Hy & Hys). rewrite (Hnth i Hi) in Hy. injection Hy as <-. exact Hys.
        - intros (s & Hs & Hinc). destruct (I_cov _ _ _ _ HI s Hs) as (w & Hw & HC). rewrite words_map in Hw. apply in_map_iff in Hw. destruct Hw as (m & <- & Hm). exists m. split; [exact Hm|]. apply forallb_forall. intros i Hi.
          destruct (HC (f i)) as (j & Hj & Hb); [apply Hinc, in_map; exact Hi|]. now rewrite (nth_inj labels (I_nodup _ _ _ _ HI) i j (f i) (Hnth i Hi) Hj). }
      split.
      + intros H. apply in_map_iff in H. destruct H as (u & <- & Hu). apply filter_In in Hu. destruct Hu as [Hu Hex]. assert (Hc : In (map f u) (combs labels (S dim))) by (rewrite <- EU; now apply in_map). apply in_combs in Hc.
        destruct Hc as [A B]. split; [exact A|]. split; [exact B|]. now apply Hund.
      + intros (A & B & C). assert (Hc : In c (combs labels (S dim))) by (apply in_combs; auto). rewrite <- EU in Hc. apply in_map_iff in Hc. destruct Hc as (u & <- & Hu). apply in_map. apply filter_In. split; [exact Hu|]. now apply Hund.
  Qed.
  Lemma count_bound : (Z.of_nat (length (filter (fun u => existsb (under u) M) U)) < 2 ^ 64)%Z.
  Proof.
    assert (H : length (filter (fun u => existsb (under u) M) U) <= length U) by (clear; induction U as [|u l IH]; cbn; [lia|]; destruct (existsb _ _); cbn; lia).
    assert (H2 : (Z.of_nat (length U) < 2 ^ 64)%Z).
    { unfold U; rewrite combs_len, seq_length. clear - Hn. clearbody Hn. revert Hn. generalize n. intros [|n'] Hn'; [cbn; lia|]. eapply Z.lt_le_trans; [apply Cn_bound1|]. apply Z.pow_le_mono_r; lia. }
    lia.
  Qed.
End N.
