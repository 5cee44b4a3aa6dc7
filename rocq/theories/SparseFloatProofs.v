(** Sparse products without ring laws: only the two facts about zero that an arithmetic with rounding keeps are used. *)
From Coq Require Import List Arith Bool Lia ZifyBool Sorted.
From Verif Require Import PidModel MatModel MatSpec MatProofs MatProofs2 SnfModel SnfProofs2 SparseModel SparseSpec SparseProofs SparseProofs2.
Import ListNotations.
Open Scope nat_scope.

Section Gen.
  Context {T : Type} {OT : Ops T}.
  (** [G]: the values partial sums take; [Fin]: the values whose product with zero can be left out. *)
  Variable G Fin : T -> Prop.
  Hypothesis G0 : G t0.
  Hypothesis Gadd : forall s x, G s -> G (tadd s x).
  Hypothesis F0 : Fin t0.
  Hypothesis skip : forall s x, G s -> Fin x -> tadd s (tmul t0 x) = s.
  Hypothesis comm : forall x y, tmul x y = tmul y x.
  Definition facc (l : list nat) (h : nat -> T) (s : T) : T := fold_left (fun s k => tadd s (h k)) l s.
  Lemma facc_G l h : forall s, G s -> G (facc l h s).
  Proof. induction l as [|x l IH]; intros s Hs; [exact Hs|]. apply IH, Gadd, Hs. Qed.
  Lemma facc_ext l h h' : (forall x s, In x l -> G s -> tadd s (h x) = tadd s (h' x)) -> forall s, G s -> facc l h s = facc l h' s.
  Proof.
    intros H. induction l as [|x l IH]; intros s Hs; [reflexivity|]. cbn. change (facc l h (tadd s (h x)) = facc l h' (tadd s (h' x))). rewrite <- (H x s) by (auto; now left).
    apply IH; [intros; apply H; auto; now right|now apply Gadd].
  Qed.
  Lemma facc_skip l h : (forall x s, In x l -> G s -> tadd s (h x) = s) -> forall s, G s -> facc l h s = s.
  Proof.
    intros H. induction l as [|x l IH]; intros s Hs; [reflexivity|]. cbn. change (facc l h (tadd s (h x)) = s). rewrite (H x s) by (auto; now left). apply IH; [intros; apply H; auto; now right|exact Hs].
  Qed.
  Lemma facc_app l1 l2 h s : facc (l1 ++ l2) h s = facc l2 h (facc l1 h s).
  Proof. apply fold_left_app. Qed.
  Lemma sum_facc n h : sum n h = facc (seq 0 n) h t0.
  Proof. induction n as [|n IH]; [reflexivity|]. rewrite seq_S, facc_app. cbn [sum]. now rewrite IH. Qed.
  Lemma seq_split N k : k < N -> seq 0 N = seq 0 k ++ k :: seq (S k) (N - S k).
  Proof. intros H. replace N with (k + S (N - S k)) at 1 by lia. rewrite seq_app. reflexivity. Qed.

  Definition term (l1 l2 : list (nat * T)) (k : nat) : T := tmul (lk l1 k) (lk l2 k).
  Definition fins (l : list (nat * T)) : Prop := forall kv, In kv l -> Fin (snd kv).
  Lemma fins_lk l k : fins l -> Fin (lk l k).
  Proof. intros H. unfold lk. destruct (find _ l) as [kv|] eqn:E; [|exact F0]. apply find_some in E. apply H, E. Qed.
  Lemma fins_tl x l : fins (x :: l) -> fins l. Proof. intros H y Hy. apply H. now right. Qed.
  Lemma skip1 l1 l2 k s : lk l1 k = t0 -> fins l2 -> G s -> tadd s (term l1 l2 k) = s.
  Proof. intros E F Hs. unfold term. rewrite E. apply skip; [exact Hs|now apply fins_lk]. Qed.
  Lemma skip2 l1 l2 k s : lk l2 k = t0 -> fins l1 -> G s -> tadd s (term l1 l2 k) = s.
  Proof. intros E F Hs. unfold term. rewrite comm. now apply skip1. Qed.
  Lemma mul_loop_gen N fuel : forall l1 l2 k2 v2 s, inc l1 -> inc ((k2, v2) :: l2) -> below N l1 -> below N ((k2, v2) :: l2) -> fins l1 -> fins ((k2, v2) :: l2) ->
    length l1 + length l2 < fuel -> G s -> mul_loop fuel l1 l2 k2 v2 s = Some (facc (seq 0 N) (term l1 ((k2, v2) :: l2)) s).
  Proof.
    induction fuel as [|fu IH]; intros l1 l2 k2 v2 s I1 I2 B1 B2 F1 F2 Hf Gs; [lia|]. cbn [mul_loop]. destruct l1 as [|[k1 v1] l1].
    - f_equal. symmetry. apply facc_skip; [|exact Gs]. intros x s' _ Hs'. now apply skip1.
    - apply inc_cons in I1. destruct I1 as [I1 A1]. pose proof I2 as I2'. apply inc_cons in I2'. destruct I2' as [I2' A2].
      inversion B1 as [|? ? X1 B1']; subst. inversion B2 as [|? ? X2 B2']; subst. cbn [fst length] in *.
      assert (F1' := fins_tl _ _ F1). assert (F2' := fins_tl _ _ F2).
      destruct (Nat.eqb_spec k1 k2) as [->|Hne].
      + rewrite IH; auto; [|lia]. f_equal. rewrite (seq_split N k2) by assumption. rewrite !facc_app.
        rewrite (facc_skip (seq 0 k2) (term l1 ((k2, v2) :: l2)) ) by (first [now apply Gadd|intros x s' Hx Hs'; apply in_seq in Hx; apply skip1; [apply (lk_above k2); [assumption|lia]|assumption|assumption]]).
        rewrite (facc_skip (seq 0 k2) (term ((k2, v1) :: l1) ((k2, v2) :: l2)) ) by (first [assumption|intros x s' Hx Hs'; apply in_seq in Hx; apply skip1; [rewrite lk_cons; replace (k2 =? x) with false by lia; apply (lk_above k2); [assumption|lia]|assumption|assumption]]).
        change (facc (k2 :: ?l) ?h ?x) with (facc l h (tadd x (h k2))). cbn beta.
        rewrite (skip1 l1 ((k2, v2) :: l2) k2 (tadd s (tmul v1 v2))) by (first [assumption|now apply Gadd|now apply (lk_above k2)]).
        unfold term at 3. rewrite !lk_cons, !Nat.eqb_refl. apply facc_ext; [|now apply Gadd]. intros x s' Hx Hs'. apply in_seq in Hx. unfold term. rewrite (lk_cons k2 v1). now replace (k2 =? x) with false by lia.
      + destruct (Nat.ltb_spec k2 k1) as [Hlt|Hge].
        * rewrite IH; auto; [|apply inc_cons; auto|lia]. f_equal. apply facc_ext; [|exact Gs]. intros x s' Hx Hs'. destruct (Nat.eq_dec x k2) as [->|Nx].
          -- rewrite (skip1 l2 ((k1, v1) :: l1)) by (first [assumption|now apply (lk_above k2)]). symmetry. apply skip1; [|assumption|assumption]. rewrite lk_cons. replace (k1 =? k2) with false by lia. apply (lk_above k1); [assumption|lia].
          -- unfold term. rewrite (lk_cons k2). replace (k2 =? x) with false by lia. f_equal. apply comm.
        * rewrite IH; auto; [|lia]. f_equal. apply facc_ext; [|exact Gs]. intros x s' Hx Hs'. destruct (Nat.eq_dec x k1) as [->|Nx].
          -- rewrite (skip1 l1) by (first [assumption|now apply (lk_above k1)]). symmetry. apply skip2; [|assumption|assumption]. rewrite lk_cons. replace (k2 =? k1) with false by lia. apply (lk_above k2); [assumption|lia].
          -- unfold term. rewrite (lk_cons k1). now replace (k1 =? x) with false by lia.
  Qed.
  (** The loop of sparse times dense runs through the present entries only. *)
  Lemma present_facc (g : nat -> option T) (h : nat -> T) : (forall k, Fin (h k)) -> forall n a s, G s ->
    fold_left (fun s kv => tadd s (tmul (snd kv) (h (fst kv)))) (gl g a n) s = facc (seq a n) (fun k => tmul (match g k with Some v => v | None => t0 end) (h k)) s.
  Proof.
    intros Fh. induction n as [|n IH]; intros a s Hs; [reflexivity|]. unfold gl in *. cbn [seq flat_map]. rewrite fold_left_app. cbn. destruct (g a) as [v|]; cbn [fold_left fst snd].
    - apply IH. now apply Gadd.
    - rewrite IH by exact Hs. cbn. unfold facc. now rewrite skip by auto.
  Qed.
  Definition pres (g : nat -> nat -> option T) (n m : nat) : Prop := forall i j v, i < n -> j < m -> g i j = Some v -> Fin v.
  Lemma gl_fins (g : nat -> option T) N : (forall k v, k < N -> g k = Some v -> Fin v) -> fins (gl g 0 N).
  Proof.
    intros H kv Hkv. unfold gl in Hkv. apply in_flat_map in Hkv. destruct Hkv as (x & Hx & Hin). apply in_seq in Hx. destruct (g x) as [v|] eqn:E; [|contradiction]. destruct Hin as [<-|[]]. apply (H x); [lia|exact E].
  Qed.

  Lemma s_mul_gen n k m f g a b : 0 < n -> 0 < m -> pres f n k -> pres g k m -> Rep n k f a -> Rep k m g b ->
    s_mul a b = Some (mk n m (prod_entry k (dense f) (dense g))).
  Proof.
    intros Hn Hm Pf Pg (A1 & A2 & A3) (B1 & B2 & B3). unfold s_mul. rewrite A1, B1. cbn [fst snd]. rewrite Nat.eqb_refl. cbn [negb].
    rewrite mzero_mk by assumption. cbn [obind].
    rewrite (foldM_seq0 _ (fun r => mk n m (fun i j => if i <? r then prod_entry k (dense f) (dense g) i j else t0))).
    - f_equal. apply mk_ext. intros i j Hi Hj. now replace (i <? n) with true by lia.
    - apply mk_ext. intros i j _ _. now replace (i <? 0) with false by lia.
    - intros i Hi.
      rewrite (foldM_seq0 _ (fun c => mk n m (fun i' j => if (i' <? i) || ((i' =? i) && (j <? c)) then prod_entry k (dense f) (dense g) i' j else t0))).
      + f_equal. apply mk_ext. intros i' j Hi' Hj. now replace ((i' <? i) || ((i' =? i) && (j <? m))) with (i' <? i + 1) by lia.
      + apply mk_ext. intros i' j Hi' Hj. now replace ((i' <? i) || ((i' =? i) && (j <? 0))) with (i' <? i) by lia.
      + intros j Hj. rewrite A2, B3. cbn [obind]. replace (i <? n) with true by lia. replace (j <? m) with true by lia.
        destruct (row_list_facts f k i) as (R1 & R2 & R3). destruct (row_list_facts (fun i j => g j i) k j) as (C1 & C2 & C3). rewrite col_list_row.
        assert (FR : fins (row_list f k i)) by (apply (gl_fins (f i)); intros; eapply (Pf i); eauto).
        assert (FC : fins (row_list (fun i j => g j i) k j)) by (apply (gl_fins (fun i => g i j)); intros x v Hx; now apply (Pg x j)).
        assert (ED : facc (seq 0 k) (term (row_list f k i) (row_list (fun i j => g j i) k j)) t0 = prod_entry k (dense f) (dense g) i j).
        { unfold prod_entry. rewrite sum_facc. apply facc_ext; [|exact G0]. intros x s Hx _. apply in_seq in Hx. unfold term. rewrite R3, C3 by lia. reflexivity. }
        destruct (row_list (fun i j => g j i) k j) as [|[k2 v2] l2].
        * f_equal. apply mk_ext. intros i' j' Hi' Hj'. destruct ((i' <? i) || ((i' =? i) && (j' <? j))) eqn:E1, ((i' <? i) || ((i' =? i) && (j' <? j + 1))) eqn:E2; try reflexivity; try lia.
          assert (i' = i /\ j' = j) as [-> ->] by lia. rewrite <- ED. symmetry. apply facc_skip; [|exact G0]. intros x s _ Hs. now apply skip2.
        * rewrite (mul_loop_gen k) by (auto; cbn; lia). cbn [obind]. rewrite mset_mk by assumption. f_equal. apply mk_ext. intros i' j' Hi' Hj'.
          destruct ((i' =? i) && (j' =? j)) eqn:E0.
          -- assert (i' = i /\ j' = j) as [-> ->] by lia. replace ((i <? i) || ((i =? i) && (j <? j + 1))) with true by lia. exact ED.
          -- now replace ((i' <? i) || ((i' =? i) && (j' <? j + 1))) with ((i' <? i) || ((i' =? i) && (j' <? j))) by lia.
  Qed.
  Lemma s_mul_dense_gen n k m f g a : 0 < n -> 0 < m -> (forall i j, i < k -> j < m -> Fin (g i j)) -> Rep n k f a ->
    s_mul_dense a (mk k m g) = Some (mk n m (prod_entry k (dense f) g)).
  Proof.
    intros Hn Hm Pg (A1 & A2 & A3). unfold s_mul_dense. rewrite A1. cbn [fst snd nr nc mk]. fold (mk k m g). rewrite Nat.eqb_refl. cbn [negb].
    rewrite mzero_mk by assumption. cbn [obind].
    rewrite (foldM_seq0 _ (fun r => mk n m (fun i j => if i <? r then prod_entry k (dense f) g i j else t0))).
    - f_equal. apply mk_ext. intros i j Hi Hj. now replace (i <? n) with true by lia.
    - apply mk_ext. intros i j _ _. now replace (i <? 0) with false by lia.
    - intros i Hi.
      rewrite (foldM_seq0 _ (fun c => mk n m (fun i' j => if (i' <? i) || ((i' =? i) && (j <? c)) then prod_entry k (dense f) g i' j else t0))).
      + f_equal. apply mk_ext. intros i' j Hi' Hj. now replace ((i' <? i) || ((i' =? i) && (j <? m))) with (i' <? i + 1) by lia.
      + apply mk_ext. intros i' j Hi' Hj. now replace ((i' <? i) || ((i' =? i) && (j <? 0))) with (i' <? i) by lia.
      + intros j Hj. rewrite A2. cbn [obind]. replace (i <? n) with true by lia.
        destruct (row_list_facts f k i) as (R1 & R2 & R3).
        assert (L : forall l h, below k l ->
          foldM (fun M kv => do x <- mget M i j; do y <- mget (mk k m g) (fst kv) j; mset M i j (tadd x (tmul (snd kv) y))) l (mk n m h) =
          Some (mk n m (fun i' j' => if (i' =? i) && (j' =? j) then fold_left (fun s kv => tadd s (tmul (snd kv) (g (fst kv) j))) l (h i j) else h i' j'))).
        { induction l as [|[k1 v1] l IH]; intros h B1.
          - cbn [foldM fold_left]. f_equal. apply mk_ext. intros i' j' Hi' Hj'. destruct ((i' =? i) && (j' =? j)) eqn:E0; [|reflexivity]. now assert (i' = i /\ j' = j) as [-> ->] by lia.
          - inversion B1 as [|? ? X1 B1']; subst. cbn [fst] in X1.
            cbn [foldM fst snd]. rewrite mget_in by assumption. cbn [obind]. rewrite mget_in by assumption. cbn [obind]. rewrite mset_mk by assumption. cbn [obind].
            rewrite IH by assumption. f_equal. apply mk_ext. intros i' j' Hi' Hj'. destruct ((i' =? i) && (j' =? j)) eqn:E0; [|reflexivity]. rewrite !Nat.eqb_refl. reflexivity. }
        rewrite L by assumption. f_equal. apply mk_ext. intros i' j' Hi' Hj'.
        destruct ((i' =? i) && (j' =? j)) eqn:E0.
        * assert (i' = i /\ j' = j) as [-> ->] by lia. replace ((i <? i) || ((i =? i) && (j <? j + 1))) with true by lia.
          replace ((i <? i) || ((i =? i) && (j <? j))) with false by lia. unfold prod_entry. rewrite sum_facc.
          change (row_list f k i) with (gl (f i) 0 k).
          transitivity (fold_left (fun s kv => tadd s (tmul (snd kv) (if fst kv <? k then g (fst kv) j else t0))) (gl (f i) 0 k) t0).
          { change (row_list f k i) with (gl (f i) 0 k) in R2. clear - R2. revert R2. set (z := (fun x => if x <? k then g x j else t0)). change (fun s kv => tadd s (tmul (snd kv) (if fst kv <? k then g (fst kv) j else t0))) with (fun s (kv : nat * T) => tadd s (tmul (snd kv) (z (fst kv)))). generalize (@t0 T OT). induction (gl (f i) 0 k) as [|kv l IH]; intros s B; [reflexivity|]. inversion B as [|? ? X B']; subst. cbn [fold_left]. replace (z (fst kv)) with (g (fst kv) j) by (unfold z; now replace (fst kv <? k) with true by lia). now apply IH. }
          rewrite (present_facc (f i) (fun x => if x <? k then g x j else t0)) by (first [exact G0|intros x; destruct (Nat.ltb_spec x k); [now apply Pg|exact F0]]).
          apply facc_ext; [|exact G0]. intros x s Hx _. apply in_seq in Hx. now replace (x <? k) with true by lia.
        * now replace ((i' <? i) || ((i' =? i) && (j' <? j + 1))) with ((i' <? i) || ((i' =? i) && (j' <? j))) by lia.
  Qed.
  Lemma dense_mul_s_gen n k m f g b : 0 < n -> 0 < m -> (forall i j, i < n -> j < k -> Fin (f i j)) -> Rep k m g b ->
    dense_mul_s (mk n k f) b = Some (mk n m (prod_entry k f (dense g))).
  Proof.
    intros Hn Hm Pf HB. unfold dense_mul_s. assert (HS : s_size b = (k, m)) by apply HB. rewrite HS. cbn [fst nc mk]. rewrite Nat.eqb_refl. cbn [negb]. fold (mk n k f).
    rewrite mtranspose_mk. cbn [obind]. rewrite (s_mul_dense_gen m k n (fun i j => g j i)); [|assumption|assumption|intros; now apply Pf|now apply Rep_transpose].
    cbn [obind]. rewrite mtranspose_mk. f_equal. apply mk_ext. intros i j Hi Hj. unfold prod_entry. rewrite !sum_facc. apply facc_ext; [|exact G0]. intros x s Hx _. f_equal. unfold dense. apply comm.
  Qed.
End Gen.
