(** Smith normal form: pivots to the diagonal, divisibility, and the whole function. *)
From Coq Require Import List Arith ZArith Bool Lia ZifyBool ZifyNat.
From Verif Require Import PidModel PidProofs MatModel MatSpec MatProofs MatProofs2 SnfModel SnfProofs SnfProofs2.
Import ListNotations.
Open Scope nat_scope.

Section Diag.
  Variables (n m : nat) (f0 : efun).
  Notation rep := (rep n m f0).
  Implicit Types (S : efun) (st : snf).
  Definition Diag S (rk : nat) : Prop := rk <= n /\ rk <= m /\ (forall p, p < rk -> S p p <> 0%Z) /\
    (forall p q, p < n -> q < m -> (p <> q \/ rk <= p) -> S p q = 0%Z).

  Lemma Ech_rk_m S rk c : Ech n m S rk c -> rk <= m.
  Proof. intros (H1 & H2 & _). destruct (Nat.eq_dec rk 0); [lia|]. destruct (H2 (rk - 1) ltac:(lia)) as (A & B & _). lia. Qed.
  Lemma Ech_Diag S rk c : Ech n m S rk c -> (forall p, p < rk -> c p = p) -> Diag S rk.
  Proof.
    intros HE Hc. pose proof (Ech_rk_m S rk c HE) as Hm. destruct HE as (H1 & H2 & H3 & H4). split; [exact H1|]. split; [exact Hm|]. split.
    - intros p Hp. destruct (H2 p Hp) as (_ & _ & X & _). now rewrite Hc in X.
    - intros p q Hp Hq H. destruct (le_lt_dec rk p) as [Hr|Hr]; [apply H4; lia|]. apply (H2 p Hr); [exact Hq|]. rewrite Hc by assumption. lia.
  Qed.
  Lemma diag_loop_ok d : forall r S st rk c, Nat.min n m - r = d -> r <= Nat.min n m -> rep S st -> Ech n m S rk c -> (forall p, p < r -> p < rk -> c p = p) ->
    exists S' st', diag_loop (rng r (Nat.min n m)) st = Some st' /\ rep S' st' /\ Diag S' rk.
  Proof.
    induction d as [|d IH]; intros r S st rk c Hd Hr HR HE Hc.
    - rewrite rng_nil by lia. cbn [diag_loop]. exists S, st. split; [reflexivity|]. split; [exact HR|]. apply (Ech_Diag S rk c HE).
      intros p Hp. apply Hc; [|exact Hp]. pose proof (Ech_rk_m S rk c HE). destruct HE as (H1 & _). lia.
    - rewrite rng_S by lia. cbn [diag_loop]. rewrite (nonzeroM_rep n m f0 S) by (auto; lia). cbn [obind].
      pose proof HE as (H1 & H2 & H3 & H4).
      destruct (le_lt_dec rk r) as [Hrk|Hrk].
      { rewrite (H4 r r) by lia. cbn [Z.eqb negb]. destruct (rep_dims n m f0 S st HR) as [D1 D2]. rewrite D2.
        rewrite (findM_some _ (fun s => negb (S r s =? 0)%Z)) by (intros s Hs; apply rng_in in Hs; apply (nonzeroM_rep n m f0); auto; lia).
        cbn [obind]. destruct (find _ _) as [s|] eqn:Ef.
        - apply find_rng in Ef. destruct Ef as (F1 & F2 & _). rewrite (H4 r s) in F2 by lia. discriminate.
        - exists S, st. split; [reflexivity|]. split; [exact HR|]. apply (Ech_Diag S rk c HE). intros p Hp. apply Hc; lia. }
      destruct (H2 r Hrk) as (C1 & C2 & C3 & C4).
      destruct (Z.eqb_spec (S r r) 0) as [Ez|Ez]; cbn [negb].
      + assert (Hne : c r <> r) by congruence.
        destruct (rep_dims n m f0 S st HR) as [D1 D2]. rewrite D2.
        rewrite (findM_some _ (fun s => negb (S r s =? 0)%Z)) by (intros s Hs; apply rng_in in Hs; apply (nonzeroM_rep n m f0); auto; lia).
        cbn [obind]. destruct (find _ _) as [s|] eqn:Ef.
        2:{ exfalso. assert (X := find_none _ _ Ef (c r) ltac:(apply rng_in; lia)). cbn in X. rewrite negb_false_iff, Z.eqb_eq in X. contradiction. }
        apply find_rng in Ef. destruct Ef as (F1 & F2 & _). rewrite negb_true_iff, Z.eqb_neq in F2.
        assert (Es : s = c r). { destruct (Nat.eq_dec s (c r)); [assumption|]. exfalso. apply F2, C4; lia. }
        rewrite (rep_get n m f0 S st r s HR) by lia. cbn [obind].
        destruct HR as (R & Ri & C & Ci & -> & G1 & G2 & G3). cbn [sS sR sRi sC sCi].
        rewrite mset_mk by lia. cbn [obind]. rewrite mset_mk by lia. cbn [obind]. rewrite swap_cols_blk, swap_rows_blk by lia. cbn [obind].
        set (S2 := fun p q => if (p =? r) && (q =? s) then 0%Z else if (p =? r) && (q =? r) then S r s else S p q).
        assert (ES : eq_on n m (cblk r s 0 1 1 0 S) S2).
        { intros p q Hp Hq. unfold cblk, S2. destruct (Nat.eqb_spec p r) as [->|Np]; cbn [andb].
          - destruct (Nat.eqb_spec q r) as [->|]; [replace (r =? s) with false by lia; lia|]. destruct (Nat.eqb_spec q s) as [->|]; [lia|reflexivity].
          - assert (Zs : forall x, (x = r \/ x = s) -> S p x = 0%Z).
            { intros x Hx. destruct (le_lt_dec rk p) as [L|L]; [apply H4; lia|]. apply (H2 p L); [lia|].
              destruct (lt_eq_lt_dec p r) as [[L2|]|L2]; [|contradiction|].
              - rewrite Hc by lia. lia.
              - pose proof (H3 r p ltac:(lia)). lia. }
            destruct (Nat.eqb_spec q r) as [->|]; [rewrite !Zs by auto; lia|]. destruct (Nat.eqb_spec q s) as [->|]; [rewrite !Zs by auto; lia|reflexivity]. }
        apply (IH (r + 1) S2 _ rk (fun p => if p =? r then r else c p)); try lia.
        * eexists _, _, _, _. split; [reflexivity|]. split; [|split; [exact G2|]].
          -- intros p q Hp Hq. rewrite <- (ES p q Hp Hq). apply factors_col; auto; lia.
          -- apply swap_C; auto; lia.
        * split; [exact H1|]. split; [|split].
          -- intros p Hp. unfold S2. destruct (Nat.eqb_spec p r) as [->|Np]; cbn [andb].
             ++ rewrite Nat.eqb_refl. replace (r =? s) with false by lia. split; [lia|]. split; [lia|]. split; [exact F2|].
                intros q Hq Hqr. destruct (Nat.eqb_spec q s) as [->|]; [reflexivity|]. replace (q =? r) with false by lia. apply C4; congruence.
             ++ apply H2, Hp.
          -- intros p p' Hp. destruct (Nat.eqb_spec p r) as [->|Np]; destruct (Nat.eqb_spec p' r) as [->|Np']; try lia.
             ++ destruct (H2 p' ltac:(lia)). lia.
             ++ rewrite Hc by lia. lia.
             ++ apply H3. lia.
          -- intros p q Hp Hq. unfold S2. replace (p =? r) with false by lia. cbn [andb]. apply H4; lia.
        * intros p Hp Hp2. destruct (Nat.eqb_spec p r); [auto|]. apply Hc; lia.
      + apply (IH (r + 1) S st rk c); try lia; auto. intros p Hp Hp2. destruct (Nat.eq_dec p r) as [->|]; [|apply Hc; lia].
        destruct (Nat.eq_dec r (c r)); [auto|]. exfalso. apply Ez, C4; lia.
  Qed.

  (** ** Divisibility.  [c_op] keeps an inverse, which is not what [c_op_inv] holds. *)
  Definition rep3 S st : Prop := exists R Ri C Ci Cg,
    st = Snf (mk n m S) (mk n n R) (mk n n Ri) (mk m m C) (mk m m Ci) /\
    factors n m f0 S R C /\ inverse_on n R Ri /\ inverse_on m C Cg.
  Lemma rep_rep3 S st : rep S st -> rep3 S st.
  Proof. intros (R & Ri & C & Ci & H & H1 & H2 & H3). exists R, Ri, C, Ci, Ci. auto. Qed.
  Lemma rep3_ext S S' st : rep3 S st -> eq_on n m S S' -> rep3 S' st.
  Proof.
    intros (R & Ri & C & Ci & Cg & E & H1 & H2 & H3) He. exists R, Ri, C, Ci, Cg. split; [|split; [|split; assumption]].
    - rewrite E. f_equal. now apply mk_ext.
    - intros p q Hp Hq. rewrite H1 by assumption. now apply He.
  Qed.
  Lemma col_invertible C Cg j l a b c d a' b' c' d' : inverse_on m C Cg -> j < m -> l < m -> j <> l -> inv2 a b c d a' b' c' d' ->
    inverse_on m (cblk j l a b c d C) (rblk j l a' c' b' d' Cg).
  Proof.
    intros H Hj Hl Hne Hv. apply inverse_on_sym. apply inverse_row; auto; [|now apply inverse_on_sym].
    apply inv2_sym in Hv. now apply inv2_tr in Hv.
  Qed.
  Definition chain S (rk r : nat) : Prop := forall p q, p < r -> p < q < rk -> (S p p | S q q)%Z.

  Lemma rep3_get S st p q : rep3 S st -> p < n -> q < m -> mget (sS st) p q = Some (S p q).
  Proof. intros (R & Ri & C & Ci & Cg & -> & _) Hp Hq. now apply mget_in. Qed.
  Lemma dividesM_rep3 S st a b c d : rep3 S st -> a < n -> b < m -> c < n -> d < m -> S a b <> 0%Z ->
    dividesM (sS st) a b c d = Some (S c d mod S a b =? 0)%Z.
  Proof.
    intros H Ha Hb Hc Hd Hz. unfold dividesM. rewrite (rep3_get S st a b H Ha Hb), (rep3_get S st c d H Hc Hd). cbn [obind].
    now apply divides_ideal.
  Qed.

  Lemma divis_step_ok S st rk r s : rep3 S st -> Diag S rk -> r < s < rk ->
    exists S' st' z, divis_step r st s = Some st' /\ rep3 S' st' /\ Diag S' rk /\ ((S r r | S s s)%Z -> st' = st) /\
      (S' r r | S r r)%Z /\ S' s s = (z * S s s)%Z /\ (S' r r | S s s)%Z /\ (forall d, (d | S r r)%Z -> (d | S s s)%Z -> (d | S' r r)%Z) /\
      (forall p, p < rk -> p <> r -> p <> s -> S' p p = S p p) /\ S r r = (z * S' r r)%Z.
  Proof.
    intros HR HD Hrs. pose proof HD as (H1 & H2 & H3 & H4). assert (Hz : S r r <> 0%Z) by (apply H3; lia).
    unfold divis_step. rewrite (dividesM_rep3 S) by (auto; lia). cbn [obind].
    destruct (Z.eqb_spec (S s s mod S r r) 0) as [Ed|Ed].
    { apply Z.mod_divide in Ed; [|exact Hz]. exists S, st, 1%Z. split; [reflexivity|]. split; [exact HR|]. split; [exact HD|]. split; [auto|].
      split; [apply Z.divide_refl|]. split; [lia|]. split; [exact Ed|]. split; [auto|]. split; [auto|lia]. }
    assert (Hnd : ~ (S r r | S s s)%Z) by (intros D; apply Ed; now apply Z.mod_divide).
    destruct HR as (R & Ri & C & Ci & Cg & -> & G1 & G2 & G3). cbn [sS sR sRi sC sCi].
    rewrite !col_operation_blk, row_operation_blk by lia. cbn [obind].
    set (S1 := cblk r s 1 1 0 1 S). rewrite !mget_in by lia. cbn [obind].
    assert (Ea : S1 r r = S r r). { unfold S1, cblk. rewrite Nat.eqb_refl. rewrite (H4 r s) by lia. ring. }
    assert (Eb : S1 s r = S s s). { unfold S1, cblk. rewrite Nat.eqb_refl. rewrite (H4 s r) by lia. ring. }
    rewrite Ea, Eb.
    destruct (bezout_block n f0 (S r r) (S s s) Hz) as (x & y & z & w & E1 & E2 & E3 & E4 & E5 & E6 & E7 & E8).
    rewrite E1. cbn [obind fst snd]. rewrite E2, E3. cbn [obind].
    rewrite (block_rows_mk n m S1) by (auto; lia). rewrite (block_rows_mk n n R) by (auto; lia). rewrite (block_cols_mk n n Ri) by (auto; lia). cbn [obind].
    rewrite !col_operation_blk, row_operation_blk by lia. cbn [obind].
    set (S2 := rblk r s x y (- w) z S1). set (S3 := cblk s r 1 (- w * y) 0 1 S2).
    set (g := Z.gcd (S r r) (S s s)) in *.
    assert (Gl : (g | S r r)%Z) by apply Z.gcd_divide_l. assert (Gr : (g | S s s)%Z) by apply Z.gcd_divide_r.
    assert (Gm : forall d, (d | S r r)%Z -> (d | S s s)%Z -> (d | g)%Z) by (intros; now apply Z.gcd_greatest). clearbody g.
    assert (X0 : (- w * S r r + z * S s s = 0)%Z) by (rewrite E5, E6; ring).
    set (S' := fun p q => if p =? q then (if p =? r then g else if p =? s then (z * S s s)%Z else S p p) else 0%Z).
    assert (Z0 : forall p q, p < n -> q < m -> p <> q -> S p q = 0%Z) by (intros; apply H4; auto).
    assert (A1 : S1 r s = 0%Z). { unfold S1, cblk. replace (s =? r) with false by lia. rewrite Nat.eqb_refl. rewrite (Z0 r s) by lia. ring. }
    assert (A2 : S1 s s = S s s). { unfold S1, cblk. replace (s =? r) with false by lia. rewrite Nat.eqb_refl. ring. }
    assert (A3 : forall q, q < m -> q <> r -> q <> s -> S1 r q = 0%Z /\ S1 s q = 0%Z).
    { intros q Hq N1 N2. unfold S1, cblk. replace (q =? r) with false by lia. replace (q =? s) with false by lia. split; apply Z0; lia. }
    assert (A4 : forall p q, p < n -> q < m -> p <> r -> p <> s -> S1 p q = if p =? q then S p p else 0%Z).
    { intros p q Hp Hq N1 N2. unfold S1, cblk. rewrite (Z0 p r), (Z0 p s) by lia. destruct (Nat.eqb_spec p q) as [<-|Npq].
      - replace (p =? r) with false by lia. now replace (p =? s) with false by lia.
      - destruct (q =? r); [ring|]. destruct (q =? s); [ring|]. now apply Z0. }
    assert (ES : eq_on n m S3 S').
    { intros p q Hp Hq. unfold S3, cblk, S2, rblk, S'. rewrite ?Nat.eqb_refl. rewrite Ea, Eb, A1, A2. clear Ed.
      destruct (Nat.eqb_spec p r) as [->|Np]; [|destruct (Nat.eqb_spec p s) as [->|Np2]].
      - destruct (Nat.eqb_spec q s) as [->|Nq]; [replace (r =? s) with false by lia|destruct (Nat.eqb_spec q r) as [->|Nq2]].
        + transitivity (y * S s s + (- w * y) * (S r r * x + S s s * y))%Z; [ring|]. rewrite E4, E6. ring.
        + rewrite ?Nat.eqb_refl. rewrite <- E4. ring.
        + replace (r =? q) with false by lia. destruct (A3 q) as [X1 X2]; [lia|lia|lia|]. rewrite X1, X2. ring.
      - destruct (Nat.eqb_spec q s) as [->|Nq]; [|destruct (Nat.eqb_spec q r) as [->|Nq2]].
        + rewrite ?Nat.eqb_refl. replace (s =? r) with false by lia. transitivity (z * S s s + (- w * y) * (- w * S r r + z * S s s))%Z; [ring|]. rewrite X0. ring.
        + replace (s =? r) with false by lia. transitivity (- w * S r r + z * S s s)%Z; [ring|exact X0].
        + replace (s =? q) with false by lia. destruct (A3 q) as [X1 X2]; [lia|lia|lia|]. rewrite X1, X2. ring.
      - rewrite !(A4 p) by lia. replace (p =? s) with false by lia. replace (p =? r) with false by lia.
        destruct (Nat.eqb_spec q s) as [->|Nq]; [|destruct (Nat.eqb_spec q r) as [->|Nq2]].
        + replace (p =? s) with false by lia. ring.
        + replace (p =? r) with false by lia. ring.
        + reflexivity. }
    assert (GA : g = S' r r) by (unfold S'; now rewrite !Nat.eqb_refl).
    assert (GB : S' s s = (z * S s s)%Z) by (unfold S'; rewrite !Nat.eqb_refl; now replace (s =? r) with false by lia).
    assert (Hzne : z <> 0%Z) by (intros ->; apply Hz; lia).
    unfold assertM, equalsM. rewrite !mget_in by lia. cbn [obind]. rewrite !ES by lia.
    replace (S' r r =? g)%Z with true by (symmetry; now apply Z.eqb_eq). cbn [obind].
    replace (S' r s) with 0%Z by (unfold S'; now replace (r =? s) with false by lia). cbn [Z.eqb obind].
    replace (S' s r) with 0%Z by (unfold S'; now replace (s =? r) with false by lia). cbn [Z.eqb obind].
    exists S'. eexists. exists z. split; [reflexivity|]. split; [|split; [|split; [|split; [|split; [|split; [|split; [|split]]]]]]].
    - apply (rep3_ext S3); [|exact ES]. eexists _, _, _, _, _. split; [reflexivity|]. split; [|split].
      + apply factors_col; [lia|lia|]. apply factors_row; [lia|lia|]. apply factors_col; [lia|lia|]. exact G1.
      + apply inverse_row; auto; lia.
      + assert (I1 : inverse_on m (cblk r s 1 1 0 1 C) (rblk r s 1 0 (-1) 1 Cg)).
        { apply col_invertible; auto; try lia. unfold inv2; lia. }
        refine (col_invertible _ _ s r 1 (- w * y) 0 1 1 (w * y) 0 1 I1 _ _ _ _); try lia. unfold inv2; lia.
    - split; [exact H1|]. split; [exact H2|]. split.
      + intros p Hp. unfold S'. rewrite Nat.eqb_refl. destruct (p =? r); [exact E7|]. destruct (p =? s); [|apply H3, Hp].
        intros X. apply Z.mul_eq_0 in X. destruct X as [X|X]; [contradiction|]. revert X. apply H3. lia.
      + intros p q Hp Hq Hpq. unfold S'. destruct (Nat.eqb_spec p q) as [->|]; [|reflexivity]. destruct Hpq as [|Hpq]; [contradiction|].
        replace (q =? r) with false by lia. replace (q =? s) with false by lia. apply H4; auto.
    - intros D. contradiction.
    - rewrite <- GA. exact Gl.
    - exact GB.
    - rewrite <- GA. exact Gr.
    - intros d D1 D2. rewrite <- GA. now apply Gm.
    - intros p Hp N1 N2. unfold S'. rewrite Nat.eqb_refl. replace (p =? r) with false by lia. now replace (p =? s) with false by lia.
    - rewrite <- GA. exact E5.
  Qed.

  Definition units S (rk : nat) : Prop := forall p, p < rk -> Z.abs (S p p) = 1%Z.
  Lemma units_chain S rk : units S rk -> chain S rk rk.
  Proof.
    intros H p q Hp Hq. apply Z.divide_abs_l. rewrite (H p Hp). apply Z.divide_1_l.
  Qed.
  Lemma divis_loop_ok S st rk : rep3 S st -> Diag S rk ->
    exists S' st', divis_loop rk st = Some st' /\ rep3 S' st' /\ Diag S' rk /\ chain S' rk rk /\ (chain S rk rk -> st' = st) /\
      (units S' rk -> units S rk).
  Proof.
    intros HR HD. unfold divis_loop.
    destruct (foldM_inv (fun st r => foldM (divis_step r) (rng (r + 1) rk) st)
      (fun r st' => exists S', rep3 S' st' /\ Diag S' rk /\ chain S' rk r /\ (chain S rk rk -> st' = st /\ chain S' rk rk) /\ (units S' rk -> units S rk)) 0 rk st) as (st' & E & S' & H); [lia| | |].
    - exists S. split; [exact HR|]. split; [exact HD|]. split; [intros p q Hp; lia|]. split; [intros H; split; auto|auto].
    - intros r st1 Hr (S1 & A1 & A2 & A3 & A4 & A5).
      destruct (foldM_inv (divis_step r) (fun s st' => exists S', rep3 S' st' /\ Diag S' rk /\ chain S' rk r /\
         (forall q, r < q < s -> q < rk -> (S' r r | S' q q)%Z) /\ (chain S rk rk -> st' = st /\ chain S' rk rk) /\ (units S' rk -> units S rk)) (r + 1) rk st1) as (st2 & E2 & S2 & B1 & B2 & B3 & B4 & B5 & B6); [lia| | |].
      + exists S1. split; [exact A1|]. split; [exact A2|]. split; [exact A3|]. split; [intros; lia|]. split; [exact A4|exact A5].
      + intros s st2 Hs (S2 & B1 & B2 & B3 & B4 & B5 & B6).
        destruct (divis_step_ok S2 st2 rk r s B1 B2 ltac:(lia)) as (S3 & st3 & z & E3 & C1 & C2 & C3 & C4 & C5 & C6 & C7 & C8 & C9).
        exists st3. split; [exact E3|]. exists S3. split; [exact C1|]. split; [exact C2|]. split; [|split; [|split]].
        * intros p q Hp Hq. rewrite (C8 p) by lia. destruct (Nat.eq_dec q r) as [->|]; [apply C7; apply B3; lia|].
          destruct (Nat.eq_dec q s) as [->|]; [rewrite C5; apply Z.divide_mul_r, B3; lia|]. rewrite (C8 q) by lia. apply B3; lia.
        * intros q Hq Hq2. destruct (Nat.eq_dec q s) as [->|]; [rewrite C5; now apply Z.divide_mul_r|]. rewrite (C8 q) by lia.
          eapply Z.divide_trans; [exact C4|]. apply B4; lia.
        * intros HC. destruct (B5 HC) as [X1 X2]. assert (E4 : st3 = st2) by (apply C3; apply X2; lia). split; [congruence|].
          intros p q Hp Hq. assert (Y1 : forall u, u < rk -> S3 u u = S2 u u); [|rewrite !Y1 by lia; apply X2; lia].
          intros u Hu. assert (L1 : u < n) by (destruct B2; lia). assert (L2 : u < m) by (destruct B2 as (_ & ? & _); lia).
          pose proof (rep3_get S3 st3 u u C1 L1 L2) as Z1. rewrite E4, (rep3_get S2 st2 u u B1 L1 L2) in Z1. congruence.
        * intros HU. apply B6. assert (Z1 : Z.abs z = 1%Z).
          { pose proof (HU s ltac:(lia)) as X. rewrite C5, Z.abs_mul in X. apply Z.mul_eq_1 in X. lia. }
          intros p Hp. destruct (Nat.eq_dec p r) as [->|]; [rewrite C9, Z.abs_mul, HU by lia; lia|].
          destruct (Nat.eq_dec p s) as [->|]; [|rewrite <- C8 by lia; apply HU; lia].
          pose proof (HU s ltac:(lia)) as X. rewrite C5, Z.abs_mul in X. lia.
      + exists st2. split; [exact E2|]. exists S2. split; [exact B1|]. split; [exact B2|]. split; [|split; [exact B5|exact B6]].
        intros p q Hp Hq. destruct (Nat.eq_dec p r) as [->|]; [apply B4; lia|apply B3; lia].
    - exists S', st'. destruct H as (H1 & H2 & H3 & H4 & H5). split; [exact E|]. split; [exact H1|]. split; [exact H2|]. split; [exact H3|]. split; [intros HC; now apply H4|exact H5].
  Qed.

  Lemma snf_rank_ok S st rk : rep S st -> Diag S rk -> snf_rank (sS st) = Some rk.
  Proof.
    intros HR (H1 & H2 & H3 & H4). unfold snf_rank. destruct (rep_dims n m f0 S st HR) as [D1 D2]. rewrite D1, D2.
    rewrite (findM_some _ (fun r => (S r r =? 0)%Z)).
    2:{ intros r Hr. apply rng_in in Hr. unfold equalsM. now rewrite (rep_get n m f0 S st r r HR) by lia. }
    cbn [obind]. f_equal. destruct (find _ _) as [r|] eqn:Ef.
    - apply find_rng in Ef. destruct Ef as (F1 & F2 & F3). apply Z.eqb_eq in F2.
      destruct (lt_eq_lt_dec r rk) as [[L|]|L]; [exfalso; now apply (H3 r L)|assumption|].
      specialize (F3 rk ltac:(lia)). apply Z.eqb_neq in F3. exfalso. apply F3, H4; lia.
    - destruct (Nat.eq_dec rk (Nat.min n m)); [auto|]. exfalso.
      pose proof (find_none _ _ Ef rk ltac:(apply rng_in; lia)) as X. apply Z.eqb_neq in X. apply X, H4; lia.
  Qed.

  Lemma rep_init : rep f0 (Snf (mk n m f0) (mk n n zid) (mk n n zid) (mk m m zid) (mk m m zid)).
  Proof.
    exists zid, zid, zid, zid. split; [reflexivity|]. split; [|split].
    - intros p q Hp Hq. rewrite (prod_id_l RZ) by exact Hp. now apply (prod_id_r RZ).
    - intros p q Hp Hq. rewrite !(prod_id_l RZ) by exact Hp. now split.
    - intros p q Hp Hq. rewrite !(prod_id_l RZ) by exact Hp. now split.
  Qed.
  Lemma snf_pivots_ok : 0 < n -> 0 < m -> exists S st rk, snf_pivots (mk n m f0) = Some st /\ rep S st /\ Diag S rk.
  Proof.
    intros Hn Hm. unfold snf_pivots. cbn [nr nc mk]. fold (mk n m f0). rewrite !midentity_mk by assumption. cbn [obind].
    destruct (pivot_loop_ok n m f0 n f0 _ 0 0 (fun _ => 0) rep_init) as (S & st & rk & c & E & H1 & H2); [|lia|].
    - split; [lia|]. split; [lia|]. split; [intros; lia|]. split; intros; lia.
    - rewrite E. cbn [obind]. destruct (diag_loop_ok (Nat.min n m - 0) 0 S st rk c eq_refl ltac:(lia) H1 H2) as (S' & st' & E' & H3 & H4); [intros; lia|].
      exists S', st', rk. auto.
  Qed.
  Lemma snf_ok : 0 < n -> 0 < m -> exists S Ri R C Ci Cg rk,
    smith_normal_form (mk n m f0) = Some (mk n n Ri, mk n n R, mk n m S, mk m m C, mk m m Ci) /\
    factors n m f0 S R C /\ inverse_on n R Ri /\ inverse_on m C Cg /\ Diag S rk /\ chain S rk rk /\
    (exists st Sp, snf_pivots (mk n m f0) = Some st /\ rep Sp st /\ Diag Sp rk /\ (chain Sp rk rk -> inverse_on m C Ci) /\ (units S rk -> chain Sp rk rk)).
  Proof.
    intros Hn Hm. destruct (snf_pivots_ok Hn Hm) as (S & st & rk & E & H1 & H2). unfold smith_normal_form. rewrite E. cbn [obind].
    rewrite (snf_rank_ok S st rk H1 H2). cbn [obind].
    destruct (divis_loop_ok S st rk (rep_rep3 S st H1) H2) as (S' & st' & E' & B1 & B2 & B3 & B4 & B5). rewrite E'. cbn [obind].
    rewrite (allM_some _ (fun _ => true)).
    2:{ intros i Hi. apply rng_in in Hi. rewrite (allM_some _ (fun k => (S' k k mod S' i i =? 0)%Z)).
        - f_equal. apply forallb_forall. intros k Hk. apply rng_in in Hk. apply Z.eqb_eq, Z.mod_divide; [apply B2; lia|apply B3; lia].
        - intros k Hk. apply rng_in in Hk. destruct B2 as (X1 & X2 & X3 & _). apply (dividesM_rep3 S'); auto; try lia. apply X3. lia. }
    replace (forallb (fun _ : nat => true) (rng 0 rk)) with true by (symmetry; now apply forallb_forall). cbn [assertM obind].
    pose proof B1 as (R & Ri & C & Ci & Cg & Est & F1 & F2 & F3). 
    exists S', Ri, R, C, Ci, Cg, rk. split; [rewrite Est; reflexivity|]. split; [exact F1|]. split; [exact F2|]. split; [exact F3|]. split; [exact B2|]. split; [exact B3|].
    exists st, S. split; [reflexivity|]. split; [exact H1|]. split; [exact H2|]. split; [|intros U; apply units_chain, B5, U]. intros HC. specialize (B4 HC).
    destruct H1 as (R1 & Ri1 & C1 & Ci1 & Est1 & _ & _ & I1). rewrite B4, Est1 in Est. injection Est as _ _ _ Q1 Q2.
    intros p q Hp Hq. destruct (I1 p q Hp Hq) as [I2 I3].
    assert (W1 : forall a b, a < m -> b < m -> C a b = C1 a b) by (intros; symmetry; now apply (mk_inj m m C1 C ltac:(unfold mk; f_equal; exact Q1))).
    assert (W2 : forall a b, a < m -> b < m -> Ci a b = Ci1 a b) by (intros; symmetry; now apply (mk_inj m m Ci1 Ci ltac:(unfold mk; f_equal; exact Q2))).
    rewrite <- I2 at 1. rewrite <- I3. split; apply prod_ext; intros k Hk; auto.
  Qed.
End Diag.
