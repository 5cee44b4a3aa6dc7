(** Rank: Steinitz bound and the invariant of the elimination. *)
From Coq Require Import List Arith Bool Lia ZifyBool Ring Field_theory.
From Verif Require Import PidModel MatModel MatSpec MatProofs MatProofs2 SnfModel SnfProofs2 RankModel RankSpec.
Import ListNotations.
Open Scope nat_scope.

Section Domain.
  Context {T : Type} {OT : Ops T}.
  Hypothesis RL : ring_theory t0 t1 tadd tmul tsub topp (@eq T).
  Hypothesis integral : forall x y : T, tmul x y = t0 -> x <> t0 -> y = t0.
  Hypothesis H01 : t1 <> t0 :> T.
  Hypothesis eq_dec_T : forall x y : T, {x = y} + {x <> y}.
  Add Ring TRd : RL.
  Local Notation "a +! b" := (tadd a b) (at level 50, left associativity).
  Local Notation "a *! b" := (tmul a b) (at level 40, left associativity).

  Definition skip (p i : nat) : nat := if i <? p then i else S i.
  Lemma sum_skip n p (f : nat -> T) : p <= n -> sum (S n) f = f p +! sum n (fun i => f (skip p i)).
  Proof.
    induction n as [|n IH]; intros Hp.
    - assert (p = 0) by lia. subst. cbn. ring.
    - destruct (Nat.eq_dec p (S n)) as [->|].
      + cbn [sum]. rewrite (sum_ext n (fun i => f (skip (S n) i)) f) by (intros k Hk; unfold skip; now replace (k <? S n) with true by lia).
        unfold skip. replace (n <? S n) with true by lia. ring.
      + change (sum (S n) f +! f (S n) = f p +! sum (S n) (fun i => f (skip p i))). rewrite IH by lia. cbn [sum]. unfold skip at 3. replace (n <? p) with false by lia. ring.
  Qed.
  Lemma find_nz r (g : nat -> T) : (forall i, i < r -> g i = t0) \/ exists i, i < r /\ g i <> t0.
  Proof.
    induction r as [|r [IH|(i & Hi & IH)]]; [left; lia| |right; exists i; auto with arith].
    destruct (eq_dec_T (g r) t0); [left|right; exists r; auto]. intros i Hi. destruct (Nat.eq_dec i r) as [->|]; [assumption|apply IH; lia].
  Qed.
  Lemma steinitz m : forall r (v : nat -> nat -> T), m < r -> exists c : nat -> T, (forall j, j < m -> sum r (fun i => c i *! v i j) = t0) /\ exists i, i < r /\ c i <> t0.
  Proof.
    induction m as [|m IH]; intros r v Hr.
    - exists (fun _ => t1). split; [lia|]. exists 0. split; [lia|exact H01].
    - destruct (find_nz r (fun i => v i m)) as [HZ|(p & Hp & Hnz)].
      + destruct (IH r v ltac:(lia)) as (c & H1 & H2). exists c. split; [|exact H2]. intros j Hj. destruct (Nat.eq_dec j m) as [->|]; [|apply H1; lia].
        apply (sum_zero RL). intros i Hi. rewrite HZ by exact Hi. ring.
      + destruct r as [|r]; [lia|].
        set (a := v p m).
        destruct (IH r (fun i j => tsub (a *! v (skip p i) j) (v (skip p i) m *! v p j)) ltac:(lia)) as (c & H1 & (i0 & Hi0 & Hc0)).
        set (unskip := fun i => if i <? p then i else i - 1).
        set (b := topp (sum r (fun i => c i *! v (skip p i) m))).
        exists (fun i => if i =? p then b else a *! c (unskip i)). split.
        * intros j Hj. rewrite (sum_skip r p) by lia. rewrite Nat.eqb_refl.
          rewrite (sum_ext r (fun i => (if skip p i =? p then b else a *! c (unskip (skip p i))) *! v (skip p i) j) (fun i => a *! (c i *! v (skip p i) j))).
          2:{ intros i Hi. unfold skip, unskip. destruct (i <? p) eqn:E.
              - replace (i =? p) with false by lia. rewrite E. ring.
              - replace (S i =? p) with false by lia. replace (S i <? p) with false by lia. replace (S i - 1) with i by lia. ring. }
          rewrite (sum_mul_l RL). destruct (Nat.eq_dec j m) as [->|].
          -- unfold b. fold a. ring.
          -- specialize (H1 j ltac:(lia)).
             assert (E : sum r (fun i => c i *! tsub (a *! v (skip p i) j) (v (skip p i) m *! v p j)) = a *! sum r (fun i => c i *! v (skip p i) j) +! b *! v p j).
             { unfold b. transitivity (sum r (fun i => c i *! v (skip p i) j) *! a +! sum r (fun i => c i *! v (skip p i) m) *! topp (v p j)); [|ring].
               rewrite <- !(sum_mul_r RL). rewrite <- (sum_add RL). apply sum_ext. intros; ring. }
             rewrite E in H1. transitivity (a *! sum r (fun i => c i *! v (skip p i) j) +! b *! v p j); [ring|exact H1].
        * assert (Ha : forall x, x <> t0 -> a *! x <> t0) by (intros x Hx Hz; apply Hx; exact (integral a x Hz Hnz)).
          exists (skip p i0). unfold skip, unskip. destruct (i0 <? p) eqn:E.
          -- split; [lia|]. replace (i0 =? p) with false by lia. rewrite E. now apply Ha.
          -- split; [lia|]. replace (S i0 =? p) with false by lia. replace (S i0 <? p) with false by lia. replace (S i0 - 1) with i0 by lia. now apply Ha.
  Qed.
  Lemma independent_le r m (v : nat -> nat -> T) : independent r m v -> r <= m.
  Proof.
    intros H. destruct (Nat.le_gt_cases r m) as [|Hgt]; [assumption|]. exfalso. destruct (steinitz m r v Hgt) as (c & H1 & (i & Hi & Hc)). apply Hc. now apply (H c).
  Qed.
  Lemma rank_le n m (f : nat -> nat -> T) r : rank_at_least n m f r -> r <= Nat.min n m.
  Proof.
    intros (C & H). apply Nat.min_glb; [|now apply independent_le in H].
    destruct (Nat.le_gt_cases r n) as [|Hgt]; [assumption|]. exfalso. destruct (steinitz n r C Hgt) as (c & H1 & (i & Hi & Hc)). apply Hc. apply (H c); [|exact Hi].
    intros j Hj. unfold prod_entry.
    rewrite (sum_ext r (fun i => c i *! sum n (fun l => C i l *! f l j)) (fun i => sum n (fun l => c i *! C i l *! f l j))).
    2:{ intros k Hk. rewrite <- (sum_mul_l RL). apply sum_ext. intros; ring. }
    rewrite (sum_swap RL). apply (sum_zero RL). intros l Hl. rewrite (sum_mul_r RL). rewrite H1 by exact Hl. ring.
  Qed.

End Domain.

Section Proofs.
  Context {T : Type} {OT : Ops T} {FT : FOps T}.
  Hypothesis RL : ring_theory t0 t1 tadd tmul tsub topp (@eq T).
  Hypothesis Hdiv : forall x, x <> t0 -> tmul (tdiv t1 x) x = t1.
  Hypothesis H01 : t1 <> t0 :> T.
  Hypothesis teqb_ok : forall x y : T, teqb x y = true <-> x = y.
  Add Ring TRk : RL.
  Local Notation "a +! b" := (tadd a b) (at level 50, left associativity).
  Local Notation "a *! b" := (tmul a b) (at level 40, left associativity).

  Lemma eq_dec_F (x y : T) : {x = y} + {x <> y}.
  Proof. destruct (teqb x y) eqn:E; [left; now apply teqb_ok|right; intros ->; pose proof (proj2 (teqb_ok y y) eq_refl); congruence]. Qed.
  Lemma integral_F x y : x *! y = t0 -> x <> t0 -> y = t0.
  Proof. intros H Hx. transitivity (tdiv t1 x *! x *! y); [rewrite Hdiv by exact Hx; ring|]. transitivity (tdiv t1 x *! (x *! y)); [ring|]. rewrite H. ring. Qed.
  Lemma rank_le_F n m (f : nat -> nat -> T) r : rank_at_least n m f r -> r <= Nat.min n m.
  Proof. exact (rank_le RL integral_F H01 eq_dec_F n m f r). Qed.

  (** every operation only keeps or lowers the row-space dimension *)
  Definition below_rank (n m : nat) (g f : nat -> nat -> T) : Prop := forall r, rank_at_least n m g r -> rank_at_least n m f r.
  Lemma below_refl n m f : below_rank n m f f. Proof. intros r H; exact H. Qed.
  Lemma below_trans n m f g h : below_rank n m f g -> below_rank n m g h -> below_rank n m f h.
  Proof. intros H1 H2 r H. auto. Qed.
  Lemma independent_ext r m v w : (forall i j, i < r -> j < m -> v i j = w i j) -> independent r m v -> independent r m w.
  Proof. intros H Hv c Hc. apply Hv. intros j Hj. rewrite <- (Hc j Hj). apply sum_ext. intros i Hi. now rewrite H. Qed.
  Lemma below_ext n m f g : (forall i j, i < n -> j < m -> f i j = g i j) -> below_rank n m f g.
  Proof. intros H r (C & HC). exists C. refine (independent_ext _ _ _ _ _ HC). intros i j Hi Hj. apply sum_ext. intros k Hk. now rewrite H. Qed.
  Lemma below_row n m f r1 r2 s : r1 < n -> r2 < n ->
    below_rank n m (fun i j => if i =? r1 then f r1 j +! f r2 j *! s else f i j) f.
  Proof.
    intros H1 H2 r (C & HC). exists (fun i l => C i l +! (if l =? r2 then C i r1 *! s else t0)). refine (independent_ext _ _ _ _ _ HC).
    intros i j Hi Hj. unfold prod_entry.
    rewrite (sum_ext n (fun l => C i l *! (if l =? r1 then f r1 j +! f r2 j *! s else f l j)) (fun l => C i l *! f l j +! (if l =? r1 then C i r1 *! f r2 j *! s else t0))).
    2:{ intros l Hl. destruct (Nat.eqb_spec l r1) as [->|]; ring. }
    rewrite (sum_ext n (fun l => (C i l +! (if l =? r2 then C i r1 *! s else t0)) *! f l j) (fun l => C i l *! f l j +! (if l =? r2 then C i r1 *! f r2 j *! s else t0))).
    2:{ intros l Hl. destruct (Nat.eqb_spec l r2) as [->|]; ring. }
    rewrite !(sum_add RL). f_equal. rewrite (sum_single RL n r1), (sum_single RL n r2); rewrite ?Nat.eqb_refl; auto.
    - intros l _ Hl. now replace (l =? r2) with false by lia.
    - intros l _ Hl. now replace (l =? r1) with false by lia.
  Qed.
  Lemma below_col n m f c1 c2 s : c1 < m -> c2 < m ->
    below_rank n m (fun i j => if j =? c1 then f i c1 +! f i c2 *! s else f i j) f.
  Proof.
    intros H1 H2 r (C & HC). exists C. intros c Hc. apply HC. intros j Hj. unfold prod_entry. destruct (Nat.eqb_spec j c1) as [->|].
    - transitivity (sum r (fun i => c i *! prod_entry n C f i c1) +! sum r (fun i => c i *! prod_entry n C f i c2) *! s).
      + rewrite <- (sum_mul_r RL), <- (sum_add RL). apply sum_ext. intros i Hi. unfold prod_entry.
        transitivity (c i *! (sum n (fun l => C i l *! f l c1) +! sum n (fun l => C i l *! f l c2) *! s)); [|ring]. f_equal.
        rewrite <- (sum_mul_r RL), <- (sum_add RL). apply sum_ext. intros; ring.
      + rewrite !Hc by assumption. ring.
    - exact (Hc j Hj).
  Qed.

  (** the invariant: the pivots found so far *)
  Definition pivots (n : nat) (f : nat -> nat -> T) (k : nat) (ps : list nat) : Prop :=
    (forall i, i < length ps -> nth i ps 0 < k) /\
    (forall i j, i < j < length ps -> nth i ps 0 < nth j ps 0) /\
    (forall p, In p ps -> f p p <> t0 /\ forall l, p < l < n -> f l p = t0).
  Lemma pivots_independent n m f k ps : k <= n -> k <= m -> pivots n f k ps -> rank_at_least n m f (length ps).
  Proof.
    intros Hn Hm (P1 & P2 & P3). exists (fun i l => id_entry (nth i ps 0) l).
    apply (independent_ext _ _ (fun i j => f (nth i ps 0) j)).
    { intros i j Hi Hj. unfold prod_entry. symmetry. exact (sum_delta_l RL n (nth i ps 0) (fun l => f l j) ltac:(specialize (P1 i Hi); lia)). }
    intros c Hc. induction i as [i IH] using (well_founded_induction lt_wf). intros Hi.
    pose proof (P1 i Hi) as Hk. destruct (P3 (nth i ps 0) (nth_In ps 0 Hi)) as [Hp1 Hp2].
    specialize (Hc (nth i ps 0) ltac:(lia)). rewrite (sum_single RL (length ps) i) in Hc.
    - destruct (eq_dec_F (c i) t0) as [|Hne]; [assumption|]. exfalso. apply Hp1. now apply (integral_F (c i)).
    - exact Hi.
    - intros j Hj Hne. destruct (Nat.lt_ge_cases j i) as [Hlt|Hge]; [rewrite IH by assumption; ring|]. rewrite Hp2; [ring|]. split; [apply P2; lia|]. specialize (P1 j Hj). lia.
  Qed.

  Lemma nzM_mk n m f i j : i < n -> j < m -> nzM (mk n m f) i j = Some (negb (teqb (f i j) t0)).
  Proof. intros Hi Hj. unfold nzM. now rewrite mget_in. Qed.
  Lemma neqb_nz x : negb (teqb x t0) = true <-> x <> t0.
  Proof. rewrite negb_true_iff. rewrite <- teqb_ok. destruct (teqb x t0); intuition congruence. Qed.

  Lemma pivots_S n f k ps : pivots n f k ps -> pivots n f (k + 1) ps.
  Proof. intros (A & B & C). split; [|split]; auto. intros i Hi. specialize (A i Hi). lia. Qed.

  Lemma fix_col_ok n m f k ps : k < n -> k < m -> pivots n f k ps -> exists g, rank_fix_col (mk n m f) k = Some (mk n m g) /\ below_rank n m g f /\ pivots n g k ps.
  Proof.
    intros Hn Hm HP. unfold rank_fix_col. rewrite nzM_mk by assumption. cbn [obind]. destruct (negb _); [exists f; auto using below_refl|].
    cbn [nc mk]. fold (mk n m f). rewrite (findM_some _ (fun i => negb (teqb (f k i) t0))) by (intros i Hi; apply rng_in in Hi; apply nzM_mk; lia).
    cbn [obind]. destruct (find _ _) as [j|] eqn:E; [|exists f; auto using below_refl]. apply find_rng in E. destruct E as (Hj & Hnz & _).
    rewrite col_operation_mk by lia. eexists. split; [reflexivity|]. split; [apply below_col; lia|].
    destruct HP as (A & B & C). split; [exact A|]. split; [exact B|]. intros p Hp. destruct (C p Hp) as [C1 C2].
    assert (p < k). { destruct (In_nth ps p 0 Hp) as (i & Hi & <-). now apply A. } replace (p =? k) with false by lia. auto.
  Qed.
  Lemma fix_row_ok n m f k ps : k < n -> k < m -> pivots n f k ps ->
    exists g b, rank_fix_row (mk n m f) k = Some (mk n m g, b) /\ below_rank n m g f /\ pivots n g k ps /\ (b = true -> g k k <> t0).
  Proof.
    intros Hn Hm HP. unfold rank_fix_row. rewrite nzM_mk by assumption. cbn [obind]. destruct (negb _) eqn:E0.
    { exists f, true. split; [reflexivity|]. split; [apply below_refl|]. split; [exact HP|]. intros _. now apply neqb_nz. }
    assert (Ef : f k k = t0). { apply teqb_ok. now apply negb_false_iff. }
    cbn [nr mk]. fold (mk n m f). rewrite (findM_some _ (fun i => negb (teqb (f i k) t0))) by (intros i Hi; apply rng_in in Hi; apply nzM_mk; lia).
    cbn [obind]. destruct (find _ _) as [i|] eqn:E.
    - apply find_rng in E. destruct E as (Hj & Hnz & _). apply neqb_nz in Hnz. rewrite row_operation_mk by lia. cbn [obind]. eexists _, true. split; [reflexivity|]. split; [apply below_row; lia|].
      split.
      + destruct HP as (A & B & C). split; [exact A|]. split; [exact B|]. intros p Hp. destruct (C p Hp) as [C1 C2].
        assert (p < k). { destruct (In_nth ps p 0 Hp) as (q & Hq & <-). now apply A. } replace (p =? k) with false by lia. split; [exact C1|].
        intros l Hl. destruct (Nat.eqb_spec l k); [|now apply C2]. rewrite !C2 by lia. ring.
      + intros _. rewrite Nat.eqb_refl, Ef. intros H. apply Hnz. rewrite <- H. ring.
    - exists f, false. split; [reflexivity|]. split; [apply below_refl|]. split; [exact HP|discriminate].
  Qed.
  Lemma elim_ok n m f k ps : k < n -> k < m -> pivots n f k ps -> f k k <> t0 ->
    exists g, rank_elim (mk n m f) k = Some (mk n m g) /\ below_rank n m g f /\ pivots n g (k + 1) (ps ++ [k]).
  Proof.
    intros Hn Hm HP Hk. unfold rank_elim. rewrite mget_in by assumption. cbn [obind]. rewrite row_operation_mk by assumption. cbn [obind].
    set (g0 := fun i j => if i =? k then f k j +! f k j *! tsub (tdiv t1 (f k k)) t1 else f i j).
    assert (Hpk : forall p, In p ps -> p < k). { intros p Hp. destruct HP as (A & _). destruct (In_nth ps p 0 Hp) as (q & Hq & <-). now apply A. }
    assert (G0 : g0 k k = t1). { unfold g0. rewrite Nat.eqb_refl. transitivity (tdiv t1 (f k k) *! f k k); [ring|now apply Hdiv]. }
    assert (P0 : pivots n g0 k ps).
    { destruct HP as (A & B & C). split; [exact A|]. split; [exact B|]. intros p Hp. destruct (C p Hp) as [C1 C2]. specialize (Hpk p Hp). unfold g0. replace (p =? k) with false by lia.
      split; [exact C1|]. intros l Hl. destruct (Nat.eqb_spec l k) as [->|]; [rewrite C2 by lia; ring|now apply C2]. }
    cbn [nr mk]. fold (mk n m g0).
    destruct (foldM_inv (fun M l => do a <- mget M l k; if teqb a t0 then Some M else row_operation M l k (tmul (tsub t0 t1) a))
      (fun l M => exists g, M = mk n m g /\ below_rank n m g f /\ pivots n g k ps /\ g k k = t1 /\ forall i, k < i < l -> g i k = t0) (k + 1) n (mk n m g0)) as (M & E & g & -> & B1 & B2 & B3 & B4).
    - lia.
    - exists g0. split; [reflexivity|]. split; [apply below_row; assumption|]. split; [exact P0|]. split; [exact G0|lia].
    - intros l M Hl (g & -> & B1 & B2 & B3 & B4). rewrite mget_in by lia. cbn [obind]. destruct (teqb (g l k) t0) eqn:Et.
      + apply teqb_ok in Et. eexists. split; [reflexivity|]. exists g. split; [reflexivity|]. split; [exact B1|]. split; [exact B2|]. split; [exact B3|].
        intros i Hi. destruct (Nat.eq_dec i l) as [->|]; [exact Et|apply B4; lia].
      + rewrite row_operation_mk by lia. eexists. split; [reflexivity|]. eexists. split; [reflexivity|]. split; [|split; [|split]].
        * apply (below_trans n m _ g); [apply below_row; lia|exact B1].
        * destruct B2 as (A & B & C). split; [exact A|]. split; [exact B|]. intros p Hp. destruct (C p Hp) as [C1 C2]. specialize (Hpk p Hp). replace (p =? l) with false by lia.
          split; [exact C1|]. intros i Hi. destruct (Nat.eqb_spec i l) as [->|]; [rewrite !C2 by lia; ring|now apply C2].
        * now replace (k =? l) with false by lia.
        * intros i Hi. destruct (Nat.eqb_spec i l) as [->|]; [rewrite B3; ring|apply B4; lia].
    - rewrite E. exists g. split; [reflexivity|]. split; [exact B1|]. destruct B2 as (A & B & C).
      split; [|split].
      + intros i Hi. rewrite app_length in Hi. cbn in Hi. destruct (Nat.eq_dec i (length ps)) as [->|]; [rewrite nth_middle; lia|]. rewrite app_nth1 by lia. specialize (A i ltac:(lia)). lia.
      + intros i j Hij. rewrite app_length in Hij. cbn in Hij. rewrite (app_nth1 _ _ _ (n := i)) by lia. destruct (Nat.eq_dec j (length ps)) as [->|]; [rewrite nth_middle; apply A; lia|]. rewrite app_nth1 by lia. apply B; lia.
      + intros p Hp. apply in_app_iff in Hp. destruct Hp as [Hp|[<-|[]]]; [now apply C|]. split; [rewrite B3; exact H01|]. intros l Hl. apply B4. lia.
  Qed.
  Lemma rank_ok n m f : exists r, rank_as_linear_map (mk n m f) = Some r /\ r <= Nat.min n m /\ rank_at_least n m f r.
  Proof.
    unfold rank_as_linear_map. cbn [nr nc mk]. fold (mk n m f).
    destruct (foldM_inv rank_step (fun k st => exists g ps, fst st = mk n m g /\ below_rank n m g f /\ pivots n g k ps /\ length ps + snd st = k) 0 (Nat.min n m) (mk n m f, 0)) as ((M & sk) & E & g & ps & EM & B1 & B2 & B3).
    - lia.
    - exists f, []. split; [reflexivity|]. split; [apply below_refl|]. split; [|reflexivity]. split; [cbn; lia|]. split; [cbn; lia|]. intros p [].
    - intros k [M sk] Hk (g & ps & EM & B1 & B2 & B3). cbn [fst snd] in *. subst M. unfold rank_step. cbn [fst snd].
      destruct (fix_col_ok n m g k ps ltac:(lia) ltac:(lia) B2) as (g1 & E1 & B11 & P1). rewrite E1. cbn [obind].
      destruct (fix_row_ok n m g1 k ps ltac:(lia) ltac:(lia) P1) as (g2 & b & E2 & B22 & P2 & Hb). rewrite E2. cbn [obind fst snd]. destruct b.
      + destruct (elim_ok n m g2 k ps ltac:(lia) ltac:(lia) P2 (Hb eq_refl)) as (g3 & E3 & B33 & P3). rewrite E3. cbn [obind]. eexists. split; [reflexivity|]. exists g3, (ps ++ [k]).
        split; [reflexivity|]. split; [eauto using below_trans|]. split; [exact P3|]. rewrite app_length. cbn. lia.
      + eexists. split; [reflexivity|]. exists g2, ps. split; [reflexivity|]. split; [eauto using below_trans|]. split; [now apply pivots_S|]. cbn [snd]. lia.
    - rewrite E. cbn [obind fst snd] in *. replace (sk <=? Nat.min n m) with true by lia. eexists. split; [reflexivity|]. split; [lia|].
      replace (Nat.min n m - sk) with (length ps) by lia. apply B1. apply (pivots_independent n m g (Nat.min n m)); [lia|lia|exact B2].
  Qed.
End Proofs.
