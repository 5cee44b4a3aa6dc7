(** [n_cells_of_dim] with machine arithmetic: no intermediate value overflows on small complexes. *)
From Coq Require Import List Arith ZArith NArith Bool Lia ZifyBool ZifyNat ZifyN Permutation Sorted.
From Verif Require Import UtilModel UtilSpec UtilProofs PidModel LinModel LinSpec LinProofs MatModel MatSpec MatProofs SnfModel.
From Verif Require Import SimpModel SimpSpec SimpProofs SimpProofs2 SimpProofs3 SimpProofs4 SimpProofs5 SimpProofs6 SimpProofs7 SimpProofs8.
Import ListNotations.
Open Scope nat_scope.

Lemma fall_fact : forall y x, y <= x -> (0 < fall x y <= zfact x)%Z.
Proof.
  induction y as [|y IH]; intros x H; [cbn [fall]; pose proof (zfact_pos x); lia|]. destruct x as [|x]; [lia|]. cbn [fall zfact]. specialize (IH x). nia.
Qed.
Lemma zfact_mono x y : x <= y -> (zfact x <= zfact y)%Z.
Proof. induction 1 as [|y H IH]; [lia|]. cbn [zfact]. pose proof (zfact_pos y). nia. Qed.
Lemma zfact20 x : x <= 20 -> (zfact x < 2 ^ 64)%Z.
Proof. intros H. eapply Z.le_lt_trans; [exact (zfact_mono x 20 H)|]. vm_compute. reflexivity. Qed.
Lemma mul_grow l : forall a, (0 < a)%Z -> (forall x, In x l -> 0 < x)%Z -> (a <= fold_left Z.mul l a)%Z.
Proof.
  induction l as [|x l IH]; intros a Ha H; cbn [fold_left]; [lia|]. assert (0 < x)%Z by (apply H; now left).
  specialize (IH (a * x)%Z ltac:(nia) ltac:(intros y Hy; apply H; now right)). nia.
Qed.
Lemma filter_len_le {A} (f : A -> bool) l : length (filter f l) <= length l.
Proof. induction l as [|b l IH]; cbn; [lia|]. destruct (f b); cbn; lia. Qed.
Lemma row_le k : forall N, (lsum (fun i => Cn k i) (seq 0 N) <= 2 ^ Z.of_nat k)%Z.
Proof.
  induction k as [|k IH]; intros N.
  - destruct N as [|N]; [cbn; lia|]. cbn [seq lsum]. rewrite lsum_zero; [cbn; lia|]. intros j Hj. apply in_seq in Hj. apply Cn_small. lia.
  - rewrite Nat2Z.inj_succ, Z.pow_succ_r by lia. destruct N as [|N]; [cbn [seq lsum]; pose proof (Z.pow_nonneg 2 (Z.of_nat k)); lia|]. cbn [seq lsum]. rewrite Cn_0.
    assert (E : lsum (fun i => Cn (S k) i) (seq 1 N) = (lsum (fun i => Cn k i) (seq 0 N) + lsum (fun i => Cn k i) (seq 1 N))%Z).
    { rewrite <- seq_shift, !lsum_map. induction (seq 0 N) as [|i l IHl]; cbn [lsum]; [reflexivity|]. rewrite IHl. cbn [Cn]. lia. }
    rewrite E. pose proof (IH N). pose proof (IH (S N)) as H2. cbn [seq lsum] in H2. rewrite Cn_0 in H2. lia.
Qed.

Section Chk.
  Variables cu ci : Z -> option Z.
  Hypothesis Hu : forall x, (0 <= x < 2 ^ 64)%Z -> cu x = Some x.
  Hypothesis Hi : forall x, (- 2 ^ 63 < x < 2 ^ 63)%Z -> ci x = Some x.

  Lemma prod_chk l : forall a, (0 < a)%Z -> (forall x, In x l -> 0 < x)%Z -> (fold_left Z.mul l a < 2 ^ 64)%Z ->
    fold_left (fun acc x => do p <- acc; cu (p * x)%Z) l (Some a) = Some (fold_left Z.mul l a).
  Proof.
    induction l as [|x l IH]; intros a Ha H Hlt; cbn [fold_left]; [reflexivity|]. cbn [obind fold_left] in *.
    assert (0 < x)%Z by (apply H; now left). assert (HX : forall y, In y l -> (0 < y)%Z) by (intros y Hy; apply H; now right).
    pose proof (mul_grow l (a * x)%Z ltac:(nia) HX). rewrite Hu by nia. apply IH; [nia|exact HX|exact Hlt].
  Qed.
  Lemma zrange_pos a b x : (0 < a)%Z -> In x (zrange a b) -> (0 < x)%Z.
  Proof. intros Ha H. unfold zrange in H. apply in_map_iff in H. destruct H as (k & <- & _). lia. Qed.
  Lemma binomial_chk x y : x <= 20 -> binomial cu x y = Some (Cn x y).
  Proof.
    intros Hx. unfold binomial. destruct (Nat.ltb_spec x y) as [H|H]; [f_equal; symmetry; now apply Cn_small|]. unfold range_product.
    rewrite prod_chk; [|lia|intros z Hz; eapply zrange_pos; [|exact Hz]; lia|rewrite zrange_prod by assumption; pose proof (fall_fact y x H); pose proof (zfact20 x Hx); lia].
    cbn [obind]. rewrite prod_chk; [|lia|intros z Hz; eapply zrange_pos; [|exact Hz]; lia|rewrite fact_range; apply zfact20; lia].
    cbn [obind]. rewrite zrange_prod by assumption. rewrite fact_range. pose proof (zfact_pos y). replace (zfact y =? 0)%Z with false by lia.
    f_equal. rewrite fall_Cn, Z.mul_comm. apply Z.div_mul. lia.
  Qed.
  Lemma sum_chk l : forall a, (0 <= a)%Z -> (forall x, In x l -> 0 <= x)%Z -> (a + lsum (fun x => x) l < 2 ^ 64)%Z ->
    fold_left (fun acc x => do s <- acc; cu (s + x)%Z) l (Some a) = Some (a + lsum (fun x => x) l)%Z.
  Proof.
    induction l as [|x l IH]; intros a Ha H Hlt; cbn [fold_left lsum] in *; [f_equal; lia|]. cbn [obind].
    assert (0 <= x)%Z by (apply H; now left). assert (HX : forall y, In y l -> (0 <= y)%Z) by (intros y Hy; apply H; now right).
    assert (0 <= lsum (fun x => x) l)%Z. { clear -HX. induction l as [|y l IH]; cbn [lsum]; [lia|]. specialize (IH ltac:(intros z Hz; apply HX; now right)). pose proof (HX y (or_introl eq_refl)). lia. }
    rewrite Hu by lia. rewrite IH; [f_equal; lia|lia|exact HX|lia].
  Qed.

  Context {T : Type}.
  Variables (labels : list T) (hist : list (list T)) (K : cplx T).
  Hypothesis HI : Inv labels hist hist K.
  Let n := length labels.
  Let M := k_max K.
  Variable dim : nat.
  Hypothesis H20 : length labels <= 20.
  Notation val := (val dim).
  Notation Esum := (Esum K dim).

  Lemma val_nonneg S : (0 <= val S)%Z. Proof. unfold val. apply Cn_bound. Qed.
  Lemma Esum_nonneg i : (0 <= Esum i)%Z.
  Proof. unfold Esum. induction (combs (k_max K) i) as [|S l IH]; cbn [lsum]; [lia|]. pose proof (val_nonneg S). lia. Qed.
  Lemma Esums_nonneg l : (0 <= lsum Esum l)%Z.
  Proof. induction l as [|i l IH]; cbn [lsum]; [lia|]. pose proof (Esum_nonneg i). lia. Qed.
  Lemma bits_le20 S : S <> [] -> incl S M -> length (bits (meetw full S)) <= 20.
  Proof.
    intros H1 H2. destruct S as [|c S]; [contradiction|]. pose proof (meet_lt_n labels hist K HI (c :: S) c (or_introl eq_refl) H2) as H.
    rewrite (bits_split _ _ H) by lia. pose proof (filter_len_le (tb (meetw full (c :: S))) (seq 0 (length labels))) as G. rewrite seq_length in G. lia.
  Qed.

  Lemma loop_chk fuel : forall r i sign out, 0 < i -> sign = Nat.odd i -> (forall j, i <= j < i + r -> fuel_ok K fuel j) ->
    (Z.abs out + lsum Esum (seq i r) < 2 ^ 63)%Z ->
    ncells_loop cu ci fuel K dim (seq i r) sign out = Some (out - lsum (fun j => alt j * Esum j)%Z (seq i r))%Z.
  Proof.
    induction r as [|r IH]; intros i sign out Hi0 Hs HF HB; [cbn [seq ncells_loop lsum]; f_equal; lia|].
    cbn [seq lsum] in HB. pose proof (Esum_nonneg i) as HE0. pose proof (Esums_nonneg (seq (S i) r)) as HE1.
    cbn [seq ncells_loop]. destruct (HF i) as (R & HP & ER); [lia|]. fold M. fold M in ER. rewrite ER. cbn [obind]. rewrite (size_words labels hist K HI).
    assert (HR : forall S, In S R -> S <> [] /\ incl S M).
    { intros S HS. apply (Permutation_in _ HP) in HS. apply in_combs in HS. destruct HS as [HS HL]. split; [intros ->; cbn in HL; lia|now apply subseq_incl]. }
    rewrite (omapM_some _ (fun S => Cell (pad (zl (k_size K / 64) S) (meetw full S)) (k_size K) (dd (meetw full S)))).
    2:{ intros S HS. destruct (HR S HS) as [H1 H2]. apply (inter_full n); [exact full_lt| |exact H1]. apply Forall_forall; intros c Hc; apply (max_good labels hist hist K HI), H2, Hc. }
    cbn [obind]. rewrite filter_map_comm. rewrite (filter_ext _ (fun x => negb ((meetw full x =? 0)%N && true))).
    2:{ intros S. unfold cell_is_empty, pad. cbn [c_v forallb]. f_equal. f_equal. clear. induction (zl (k_size K / 64) S); cbn; auto. }
    set (Rn := filter (fun x => negb ((meetw full x =? 0)%N && true)) R).
    assert (HRn : lsum val Rn = Esum i).
    { unfold Rn. rewrite lsum_filter. unfold Esum. rewrite <- (lsum_perm _ _ _ HP). apply lsum_ext. intros S HS. destruct (N.eqb_spec (meetw full S) 0) as [E|]; [|reflexivity]. cbn [andb negb]. symmetry. now apply (empty_val labels hist K HI). }
    assert (Hnz : forall S, In S Rn -> meetw full S <> 0%N).
    { intros S HS. apply filter_In in HS. destruct HS as [_ HS]. destruct (N.eqb_spec (meetw full S) 0); [discriminate|assumption]. }
    destruct (map _ Rn) as [|c0 cs] eqn:EM.
    - assert (Hnil : forall S, In S (combs M i) -> meetw full S = 0%N).
      { intros S HS. destruct (N.eqb_spec (meetw full S) 0) as [E|NE]; [exact E|]. exfalso. assert (HSR : In S Rn).
        { apply filter_In. split; [eapply Permutation_in; [apply Permutation_sym; exact HP|exact HS]|]. destruct (N.eqb_spec (meetw full S) 0); [contradiction|reflexivity]. }
        destruct Rn; [destruct HSR|discriminate]. }
      f_equal. rewrite lsum_zero; [lia|]. intros j Hj. assert (i <= j) by (destruct Hj as [<-|Hj]; [lia|apply in_seq in Hj; lia]). rewrite (larger_empty labels hist K HI dim i j) by assumption. lia.
    - rewrite <- EM. rewrite <- (omapM_map (fun c => do d <- c_dim c; binomial cu (d + 1) (dim + 1)) (fun S => Cell (pad (zl (k_size K / 64) S) (meetw full S)) (k_size K) (dd (meetw full S)))).
      rewrite (omapM_some _ val).
      2:{ intros S HS. cbn [c_dim]. destruct (dd_val labels hist K HI (meetw full S) (Hnz S HS) (meetw_lt S full 64 full_lt)) as (d & E1 & E2). rewrite E1. cbn [obind].
          assert (HS' : In S R) by (apply filter_In in HS; apply HS). destruct (HR S HS') as [H1 H2]. pose proof (bits_le20 S H1 H2). rewrite binomial_chk by lia. unfold val. now rewrite E2. }
      cbn [obind]. assert (ES : lsum (fun x => x) (map val Rn) = Esum i) by (rewrite lsum_map; exact HRn).
      rewrite sum_chk; [|lia|intros x Hx; apply in_map_iff in Hx; destruct Hx as (S & <- & _); apply val_nonneg|rewrite ES; lia].
      cbn [obind]. rewrite ES. rewrite Hi by (destruct sign; lia). cbn [obind]. rewrite IH; [| lia | | |].
      + f_equal. cbn [lsum]. subst sign. unfold alt. rewrite <- Nat.negb_odd. destruct (Nat.odd i); cbn [negb]; lia.
      + subst sign. rewrite Nat.odd_succ, <- Nat.negb_odd. reflexivity.
      + intros j Hj. apply HF. lia.
      + destruct sign; lia.
  Qed.

  Lemma Esums_bound : length labels + length M <= 63 -> (lsum Esum (seq 1 (length M)) < 2 ^ 63)%Z.
  Proof.
    intros HM. set (U := combs (seq 0 (length labels)) (S dim)).
    assert (E : lsum Esum (seq 1 (length M)) = lsum (fun u => lsum (fun i => Cn (length (filter (under u) M)) i) (seq 1 (length M))) U).
    { rewrite lsum_swap. apply lsum_ext. intros i Hi'. apply in_seq in Hi'. apply (Esum_Cn labels hist K HI dim i). lia. }
    rewrite E. assert (B : forall l, (lsum (fun u => lsum (fun i => Cn (length (filter (under u) M)) i) (seq 1 (length M))) l <= Z.of_nat (length l) * (2 ^ Z.of_nat (length M) - 1))%Z).
    { induction l as [|u l IH]; cbn [lsum length]; [lia|]. pose proof (row_le (length (filter (under u) M)) (S (length M))) as R. cbn [seq lsum] in R. rewrite Cn_0 in R.
      assert (2 ^ Z.of_nat (length (filter (under u) M)) <= 2 ^ Z.of_nat (length M))%Z.
      { apply Z.pow_le_mono_r; [lia|]. apply Nat2Z.inj_le, filter_len_le. }
      lia. }
    specialize (B U). assert (BU : (Z.of_nat (length U) <= 2 ^ Z.of_nat (length labels))%Z) by (unfold U; rewrite combs_len, seq_length; apply Cn_bound).
    assert (P : (2 ^ Z.of_nat (length labels) * 2 ^ Z.of_nat (length M) <= 2 ^ 63)%Z) by (rewrite <- Z.pow_add_r by lia; apply Z.pow_le_mono_r; lia).
    assert (0 < 2 ^ Z.of_nat (length labels))%Z by (apply Z.pow_pos_nonneg; lia). assert (0 < 2 ^ Z.of_nat (length M))%Z by (apply Z.pow_pos_nonneg; lia). nia.
  Qed.
End Chk.
