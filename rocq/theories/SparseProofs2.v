(** Sparse matrices: products and equality. *)
From Coq Require Import List Arith Bool Lia ZifyBool Sorted Ring.
From Verif Require Import PidModel MatModel MatSpec MatProofs MatProofs2 SnfModel SnfProofs2 SparseModel SparseSpec SparseProofs.
Import ListNotations.
Open Scope nat_scope.

Section Prod.
  Context {T : Type} {OT : Ops T}.
  Hypothesis RL : ring_theory t0 t1 tadd tmul tsub topp (@eq T).
  Add Ring TR2 : RL.
  Local Notation "a +! b" := (tadd a b) (at level 50, left associativity).
  Local Notation "a *! b" := (tmul a b) (at level 40, left associativity).

  Definition lk (l : list (nat * T)) (k : nat) : T := match find (fun kv => fst kv =? k) l with Some kv => snd kv | None => t0 end.
  Definition above (k : nat) (l : list (nat * T)) : Prop := Forall (fun kv => k < fst kv) l.
  Definition inc (l : list (nat * T)) : Prop := StronglySorted (fun a b => fst a < fst b) l.
  Definition below (N : nat) (l : list (nat * T)) : Prop := Forall (fun kv => fst kv < N) l.
  Lemma lk_above k l k' : above k l -> k' <= k -> lk l k' = t0.
  Proof.
    intros H Hk. unfold lk. induction H as [|kv l Hx H IH]; [reflexivity|]. cbn [find]. now replace (fst kv =? k') with false by lia.
  Qed.
  Lemma lk_cons k v l k' : lk ((k, v) :: l) k' = if k =? k' then v else lk l k'.
  Proof. unfold lk. cbn [find fst]. now destruct (k =? k'). Qed.
  Definition dot (N : nat) (l1 l2 : list (nat * T)) : T := sum N (fun k => lk l1 k *! lk l2 k).
  Lemma dot_comm N l1 l2 : dot N l1 l2 = dot N l2 l1.
  Proof. apply sum_ext. intros; ring. Qed.
  Lemma dot_cons N k v l L : k < N -> above k l -> dot N ((k, v) :: l) L = v *! lk L k +! dot N l L.
  Proof.
    intros Hk Ha. unfold dot. rewrite (sum_one RL N k) by exact Hk. rewrite (sum_one RL N k (fun k0 => lk l k0 *! lk L k0)) by exact Hk.
    rewrite lk_cons, Nat.eqb_refl. rewrite (lk_above k l k Ha) by lia.
    rewrite (sum_ext N (fun k0 => if k0 =? k then t0 else lk ((k, v) :: l) k0 *! lk L k0) (fun k0 => if k0 =? k then t0 else lk l k0 *! lk L k0)).
    - ring.
    - intros k0 _. rewrite lk_cons. destruct (Nat.eqb_spec k0 k); [reflexivity|]. now replace (k =? k0) with false by lia.
  Qed.
  Lemma inc_cons k v l : inc ((k, v) :: l) <-> inc l /\ above k l.
  Proof. unfold inc, above. split; [inversion 1; auto|]. intros [A B]. now constructor. Qed.

  Lemma mul_loop_ok N fuel : forall l1 l2 k2 v2 s, inc l1 -> inc ((k2, v2) :: l2) -> below N l1 -> below N ((k2, v2) :: l2) ->
    length l1 + length l2 < fuel -> mul_loop fuel l1 l2 k2 v2 s = Some (s +! dot N l1 ((k2, v2) :: l2)).
  Proof.
    induction fuel as [|fu IH]; intros l1 l2 k2 v2 s I1 I2 B1 B2 Hf; [lia|]. cbn [mul_loop]. destruct l1 as [|[k1 v1] l1].
    - f_equal. unfold dot. rewrite (sum_zero RL); [ring|]. intros k Hk. unfold lk at 1. cbn. ring.
    - apply inc_cons in I1. destruct I1 as [I1 A1]. pose proof I2 as I2'. apply inc_cons in I2'. destruct I2' as [I2' A2].
      inversion B1 as [|? ? X1 B1']; subst. inversion B2 as [|? ? X2 B2']; subst. cbn [fst length] in *.
      destruct (Nat.eqb_spec k1 k2) as [->|Hne].
      + rewrite IH; auto; [|lia]. f_equal. rewrite (dot_cons N k2 v1) by assumption. rewrite lk_cons, Nat.eqb_refl. ring.
      + destruct (Nat.ltb_spec k2 k1) as [Hlt|Hge].
        * rewrite IH; auto; [|apply inc_cons; auto|lia]. f_equal. rewrite (dot_comm N ((k1, v1) :: l1) ((k2, v2) :: l2)).
          rewrite (dot_cons N k2 v2) by assumption. rewrite lk_cons. replace (k1 =? k2) with false by lia. rewrite (lk_above k1 l1 k2 A1) by lia. ring.
        * rewrite IH; auto; [|lia]. f_equal. rewrite (dot_cons N k1 v1) by assumption. rewrite lk_cons. replace (k2 =? k1) with false by lia.
          rewrite (lk_above k2 l2 k1 A2) by lia. ring.
  Qed.

  (** row and column lists *)
  Definition gl (g : nat -> option T) (a n : nat) : list (nat * T) := flat_map (fun j => match g j with Some v => [(j, v)] | None => [] end) (seq a n).
  Lemma gl_facts g n : forall a, inc (gl g a n) /\ (forall kv, In kv (gl g a n) -> a <= fst kv < a + n) /\
    forall k, lk (gl g a n) k = if (a <=? k) && (k <? a + n) then match g k with Some v => v | None => t0 end else t0.
  Proof.
    induction n as [|n IH]; intros a.
    - split; [constructor|]. split; [intros kv []|]. intros k. now replace ((a <=? k) && (k <? a + 0)) with false by lia.
    - destruct (IH (S a)) as (H1 & H2 & H3). unfold gl in *. cbn [seq flat_map]. destruct (g a) as [v|] eqn:Eg; cbn [app].
      + split; [|split].
        * apply inc_cons. split; [exact H1|]. apply Forall_forall. intros kv Hkv. specialize (H2 kv Hkv). lia.
        * intros kv [<-|Hkv]; [cbn; lia|]. specialize (H2 kv Hkv). lia.
        * intros k. rewrite lk_cons, H3. destruct (Nat.eqb_spec a k) as [<-|]; [rewrite Eg; now replace ((a <=? a) && (a <? a + S n)) with true by lia|].
          now replace ((a <=? k) && (k <? a + S n)) with ((S a <=? k) && (k <? S a + n)) by lia.
      + split; [exact H1|]. split; [intros kv Hkv; specialize (H2 kv Hkv); lia|]. intros k. rewrite H3.
        destruct (Nat.eqb_spec a k) as [<-|]; [rewrite Eg; now destruct ((a <=? a) && _), ((S a <=? a) && _)|].
        now replace ((a <=? k) && (k <? a + S n)) with ((S a <=? k) && (k <? S a + n)) by lia.
  Qed.
  Lemma row_list_facts f m i : inc (row_list f m i) /\ below m (row_list f m i) /\ forall k, k < m -> lk (row_list f m i) k = dense f i k.
  Proof.
    destruct (gl_facts (f i) m 0) as (H1 & H2 & H3). split; [exact H1|]. split.
    - apply Forall_forall. intros kv Hkv. specialize (H2 kv Hkv). lia.
    - intros k Hk. change (row_list f m i) with (gl (f i) 0 m). rewrite H3. now replace ((0 <=? k) && (k <? 0 + m)) with true by lia.
  Qed.
  Lemma col_list_row (f : nat -> nat -> option T) n j : col_list f n j = row_list (fun i j => f j i) n j.
  Proof. reflexivity. Qed.

  Lemma Rep_pos n m (f : nat -> nat -> option T) s : Rep n m f s -> s_size s = (n, m). Proof. now intros [? _]. Qed.
  Lemma s_mul_ok n k m f g a b : 0 < n -> 0 < m -> Rep n k f a -> Rep k m g b ->
    s_mul a b = Some (mk n m (prod_entry k (dense f) (dense g))).
  Proof.
    intros Hn Hm (A1 & A2 & A3) (B1 & B2 & B3). unfold s_mul. rewrite A1, B1. cbn [fst snd]. rewrite Nat.eqb_refl. cbn [negb].
    rewrite mzero_mk by assumption. cbn [obind].
    rewrite (foldM_seq0 _ (fun r => mk n m (fun i j => if i <? r then prod_entry k (dense f) (dense g) i j else t0))).
    - f_equal. apply mk_ext. intros i j Hi Hj. now replace (i <? n) with true by lia.
    - apply mk_ext. intros i j _ _. now replace (i <? 0) with false by lia.
    - intros i Hi.
      rewrite (foldM_seq0 _ (fun c => mk n m (fun i' j => if (i' <? i) || ((i' =? i) && (j <? c)) then prod_entry k (dense f) (dense g) i' j else t0))).
      + f_equal. apply mk_ext. intros i' j Hi' Hj. now replace ((i' <? i) || ((i' =? i) && (j <? m))) with (i' <? i + 1) by lia.
      + apply mk_ext. intros i' j Hi' Hj. now replace ((i' <? i) || ((i' =? i) && (j <? 0))) with (i' <? i) by lia.
      + intros j Hj. rewrite A2, B3. cbn [obind]. replace (i <? n) with true by lia. replace (j <? m) with true by lia.
        destruct (row_list_facts f k i) as (R1 & R2 & R3). destruct (row_list_facts (fun i j => g j i) k j) as (C1 & C2 & C3). rewrite col_list_row.
        assert (ED : dot k (row_list f k i) (row_list (fun i j => g j i) k j) = prod_entry k (dense f) (dense g) i j).
        { apply sum_ext. intros x Hx. rewrite R3, C3 by assumption. reflexivity. }
        destruct (row_list (fun i j => g j i) k j) as [|[k2 v2] l2].
        * f_equal. apply mk_ext. intros i' j' Hi' Hj'. destruct ((i' <? i) || ((i' =? i) && (j' <? j))) eqn:E1, ((i' <? i) || ((i' =? i) && (j' <? j + 1))) eqn:E2; try reflexivity; try lia.
          assert (i' = i /\ j' = j) as [-> ->] by lia. rewrite <- ED. unfold dot. rewrite (sum_zero RL); [reflexivity|]. intros x Hx. unfold lk at 2. cbn. ring.
        * rewrite (mul_loop_ok k) by (auto; cbn; lia). cbn [obind]. rewrite mset_mk by assumption. f_equal. apply mk_ext. intros i' j' Hi' Hj'.
          destruct ((i' =? i) && (j' =? j)) eqn:E0.
          -- assert (i' = i /\ j' = j) as [-> ->] by lia. replace ((i <? i) || ((i =? i) && (j <? j + 1))) with true by lia. rewrite <- ED. ring.
          -- now replace ((i' <? i) || ((i' =? i) && (j' <? j + 1))) with ((i' <? i) || ((i' =? i) && (j' <? j))) by lia.
  Qed.
  Lemma s_mul_dense_ok n k m f g a : 0 < n -> 0 < m -> Rep n k f a ->
    s_mul_dense a (mk k m g) = Some (mk n m (prod_entry k (dense f) g)).
  Proof.
    intros Hn Hm (A1 & A2 & A3). unfold s_mul_dense. rewrite A1. cbn [fst snd nr nc mk]. fold (mk k m g). rewrite Nat.eqb_refl. cbn [negb].
    rewrite mzero_mk by assumption. cbn [obind].
    rewrite (foldM_seq0 _ (fun r => mk n m (fun i j => if i <? r then prod_entry k (dense f) g i j else t0))).
    - f_equal. apply mk_ext. intros i j Hi Hj. now replace (i <? n) with true by lia.
    - apply mk_ext. intros i j _ _. now replace (i <? 0) with false by lia.
    - intros i Hi.
      rewrite (foldM_seq0 _ (fun c => mk n m (fun i' j => if (i' <? i) || ((i' =? i) && (j <? c)) then prod_entry k (dense f) g i' j else t0))).
      + f_equal. apply mk_ext. intros i' j Hi' Hj. now replace ((i' <? i) || ((i' =? i) && (j <? m))) with (i' <? i + 1) by lia.
      + apply mk_ext. intros i' j Hi' Hj. now replace ((i' <? i) || ((i' =? i) && (j <? 0))) with (i' <? i) by lia.
      + intros j Hj. rewrite A2. cbn [obind]. replace (i <? n) with true by lia.
        destruct (row_list_facts f k i) as (R1 & R2 & R3).
        assert (L : forall l h, inc l -> below k l ->
          foldM (fun M kv => do x <- mget M i j; do y <- mget (mk k m g) (fst kv) j; mset M i j (tadd x (tmul (snd kv) y))) l (mk n m h) =
          Some (mk n m (fun i' j' => if (i' =? i) && (j' =? j) then h i j +! sum k (fun x => lk l x *! g x j) else h i' j'))).
        { induction l as [|[k1 v1] l IH]; intros h I1 B1.
          - cbn [foldM]. f_equal. apply mk_ext. intros i' j' Hi' Hj'. destruct ((i' =? i) && (j' =? j)) eqn:E0; [|reflexivity].
            assert (i' = i /\ j' = j) as [-> ->] by lia. rewrite (sum_zero RL); [ring|]. intros x _. unfold lk. cbn. ring.
          - apply inc_cons in I1. destruct I1 as [I1 Ab]. inversion B1 as [|? ? X1 B1']; subst. cbn [fst] in X1.
            cbn [foldM fst snd]. rewrite mget_in by assumption. cbn [obind]. rewrite mget_in by assumption. cbn [obind]. rewrite mset_mk by assumption. cbn [obind].
            rewrite IH by assumption. f_equal. apply mk_ext. intros i' j' Hi' Hj'. destruct ((i' =? i) && (j' =? j)) eqn:E0.
            + rewrite !Nat.eqb_refl. cbn [andb].
              rewrite (sum_one RL k k1 (fun x => lk ((k1, v1) :: l) x *! g x j)) by exact X1. rewrite (sum_one RL k k1 (fun x => lk l x *! g x j)) by exact X1.
              rewrite lk_cons, Nat.eqb_refl. rewrite (lk_above k1 l k1 Ab) by lia.
              rewrite (sum_ext k (fun k0 => if k0 =? k1 then t0 else lk ((k1, v1) :: l) k0 *! g k0 j) (fun k0 => if k0 =? k1 then t0 else lk l k0 *! g k0 j)).
              * ring.
              * intros k0 _. rewrite lk_cons. destruct (Nat.eqb_spec k0 k1); [reflexivity|]. now replace (k1 =? k0) with false by lia.
            + reflexivity. }
        rewrite L by assumption. f_equal. apply mk_ext. intros i' j' Hi' Hj'.
        destruct ((i' =? i) && (j' =? j)) eqn:E0.
        * assert (i' = i /\ j' = j) as [-> ->] by lia. replace ((i <? i) || ((i =? i) && (j <? j + 1))) with true by lia.
          replace ((i <? i) || ((i =? i) && (j <? j))) with false by lia. unfold prod_entry.
          rewrite (sum_ext k (fun x => lk (row_list f k i) x *! g x j) (fun l => dense f i l *! g l j)); [ring|]. intros x Hx. now rewrite R3.
        * now replace ((i' <? i) || ((i' =? i) && (j' <? j + 1))) with ((i' <? i) || ((i' =? i) && (j' <? j))) by lia.
  Qed.
  Lemma dense_mul_s_ok n k m f g b : 0 < n -> 0 < m -> Rep k m g b ->
    dense_mul_s (mk n k f) b = Some (mk n m (prod_entry k f (dense g))).
  Proof.
    intros Hn Hm HB. unfold dense_mul_s. pose proof (Rep_pos _ _ _ _ HB) as HS. rewrite HS. cbn [fst nc mk]. rewrite Nat.eqb_refl. cbn [negb]. fold (mk n k f).
    rewrite mtranspose_mk. cbn [obind]. rewrite (s_mul_dense_ok m k n (fun i j => g j i)); [|assumption|assumption|now apply Rep_transpose].
    cbn [obind]. rewrite mtranspose_mk. f_equal. apply mk_ext. intros i j Hi Hj. unfold prod_entry. apply sum_ext. intros x Hx. unfold dense. ring.
  Qed.
End Prod.

Section Eq.
  Context {T : Type} {OT : Ops T}.
  Variable teqb : T -> T -> bool.
  Hypothesis teqb_ok : forall x y, teqb x y = true <-> x = y.
  Lemma teqb_f x y : teqb x y = false <-> x <> y.
  Proof. rewrite <- teqb_ok. destruct (teqb x y); intuition congruence. Qed.
  Lemma eq_row_ok n m h i : i < n -> forall l j, inc l -> below m l -> Forall (fun kv => j <= fst kv) l ->
    exists b, eq_row teqb (mk n m h) i j l = Some b /\ (b = true <-> forall c, j <= c < m -> h i c = lk l c).
  Proof.
    intros Hi. induction l as [|[k v] l IH]; intros j I B A; cbn [eq_row].
    - rewrite (anyM_some _ (fun c => negb (teqb (h i c) t0))).
      + cbn [obind]. eexists. split; [reflexivity|]. rewrite negb_true_iff. cbn [nc mk]. split.
        * intros HE c Hc. unfold lk. cbn. apply teqb_ok. destruct (teqb (h i c) t0) eqn:E; [reflexivity|]. exfalso.
          assert (X : existsb (fun c => negb (teqb (h i c) t0)) (rng j m) = true) by (apply existsb_exists; exists c; rewrite E; split; [apply rng_in; lia|reflexivity]). congruence.
        * intros H. destruct (existsb _ _) eqn:E; [|reflexivity]. apply existsb_exists in E. destruct E as (c & Hc & Hn). apply rng_in in Hc.
          rewrite (H c Hc) in Hn. unfold lk in Hn. cbn in Hn. rewrite (proj2 (teqb_ok t0 t0) eq_refl) in Hn. discriminate.
      + intros c Hc. cbn [nc mk] in Hc. apply rng_in in Hc. now rewrite mget_in by lia.
    - apply inc_cons in I. destruct I as [I Ab]. inversion B as [|? ? X1 B']; subst. inversion A as [|? ? X2 A']; subst. cbn [fst] in *.
      rewrite (anyM_some _ (fun c => negb (teqb (h i c) t0))) by (intros c Hc; apply rng_in in Hc; now rewrite mget_in by lia).
      cbn [obind]. destruct (existsb _ _) eqn:E.
      + exists false. split; [reflexivity|]. split; [discriminate|]. intros H. exfalso. apply existsb_exists in E. destruct E as (c & Hc & Hn). apply rng_in in Hc.
        rewrite (H c ltac:(lia)), lk_cons in Hn. replace (k =? c) with false in Hn by lia. rewrite (lk_above k l c Ab) in Hn by lia.
        rewrite (proj2 (teqb_ok t0 t0) eq_refl) in Hn. discriminate.
      + rewrite mget_in by lia. cbn [obind]. destruct (teqb (h i k) v) eqn:Ev; cbn [negb].
        * apply teqb_ok in Ev. destruct (IH (k + 1) I B') as (b & E1 & E2). { eapply Forall_impl; [|exact Ab]. cbn; intros; lia. }
          exists b. split; [exact E1|]. rewrite E2. split; intros H c Hc.
          -- rewrite lk_cons. destruct (Nat.eqb_spec k c) as [->|]; [exact Ev|]. destruct (Nat.lt_ge_cases k c); [apply H; lia|].
             rewrite (lk_above k l c Ab) by lia. apply teqb_ok. destruct (teqb (h i c) t0) eqn:Ec; [reflexivity|]. exfalso.
             assert (X : existsb (fun c => negb (teqb (h i c) t0)) (rng j k) = true) by (apply existsb_exists; exists c; rewrite Ec; split; [apply rng_in; lia|reflexivity]). congruence.
          -- rewrite H by lia. rewrite lk_cons. now replace (k =? c) with false by lia.
        * exists false. split; [reflexivity|]. split; [discriminate|]. intros H. exfalso. apply teqb_f in Ev. apply Ev. rewrite (H k) by lia. rewrite lk_cons. now rewrite Nat.eqb_refl.
  Qed.
  Lemma s_eq_ok n m f s h n' m' : Rep n m f s ->
    exists b, s_eq teqb s (mk n' m' h) = Some b /\ (b = true <-> n = n' /\ m = m' /\ forall i j, i < n -> j < m -> h i j = dense f i j).
  Proof.
    intros (R1 & R2 & _). unfold s_eq. rewrite R1. cbn [fst snd nr nc mk]. fold (mk n' m' h).
    destruct ((n =? n') && (m =? m')) eqn:E; cbn [negb].
    - assert (n' = n /\ m' = m) as [-> ->] by lia.
      assert (X : forall i, exists b, i < n -> (do l <- row_iter s i; eq_row teqb (mk n m h) i 0 l) = Some b /\ (b = true <-> forall c, c < m -> h i c = dense f i c)).
      { intros i. destruct (Nat.lt_ge_cases i n) as [Hi|Hi]; [|exists true; lia]. rewrite R2. replace (i <? n) with true by lia. cbn [obind].
        destruct (row_list_facts f m i) as (F1 & F2 & F3). destruct (eq_row_ok n m h i Hi (row_list f m i) 0 F1 F2) as (b & E1 & E2). { apply Forall_forall. intros; lia. }
        exists b. intros _. split; [exact E1|]. rewrite E2. split; intros H c Hc; [rewrite H by lia; now apply F3|rewrite F3 by lia; apply H; lia]. }
      assert (exists bf, forall i, i < n -> (do l <- row_iter s i; eq_row teqb (mk n m h) i 0 l) = Some (bf i) /\ (bf i = true <-> forall c, c < m -> h i c = dense f i c)).
      { exists (fun i => match (do l <- row_iter s i; eq_row teqb (mk n m h) i 0 l) with Some b => b | None => true end). intros i Hi. destruct (X i) as (b & Hb). destruct (Hb Hi) as [Hb1 Hb2]. rewrite Hb1. auto. }
      destruct H as (bf & Hbf). rewrite (allM_some _ bf) by (intros i Hi; apply rng_in in Hi; apply Hbf; lia).
      eexists. split; [reflexivity|]. rewrite forallb_forall. split.
      + intros H. split; [reflexivity|]. split; [reflexivity|]. intros i j Hi Hj. apply (Hbf i Hi); [|exact Hj]. apply H, rng_in. lia.
      + intros (_ & _ & H) i Hi. apply rng_in in Hi. apply Hbf; [lia|]. intros c Hc. apply H; lia.
    - exists false. split; [reflexivity|]. split; [discriminate|]. intros (-> & -> & _). rewrite !Nat.eqb_refl in E. discriminate.
  Qed.
End Eq.
