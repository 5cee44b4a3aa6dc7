(** Ranks in a chain complex over a field. *)
From Coq Require Import List Arith Bool Lia ZifyBool ZifyNat Ring.
From Verif Require Import PidModel MatModel MatSpec MatProofs MatProofs2 SnfModel RankModel RankSpec RankProofs HomModel HomSpec.
Import ListNotations.
Open Scope nat_scope.

Section FieldHom.
  Context {T : Type} {OT : Ops T} {FT : FOps T}.
  Hypothesis RL : ring_theory t0 t1 tadd tmul tsub topp (@eq T).
  Hypothesis integral : forall x y : T, tmul x y = t0 -> x <> t0 -> y = t0.
  Hypothesis H01 : t1 <> t0 :> T.
  Hypothesis eq_dec_T : forall x y : T, {x = y} + {x <> y}.
  Add Ring TRh : RL.
  Lemma sum_split_T a b (g : nat -> T) : sum (a + b) g = tadd (sum a g) (sum b (fun j => g (a + j))).
  Proof. induction b as [|b IH]; [rewrite Nat.add_0_r; cbn [sum]; ring|]. rewrite Nat.add_succ_r. cbn [sum]. rewrite IH. ring. Qed.

  Lemma compose_rank q n m (A B : nat -> nat -> T) r s : rank_at_least q n A r -> rank_at_least n m B s ->
    (forall i j, i < q -> j < m -> prod_entry n A B i j = t0) -> r + s <= n.
  Proof.
    intros (CA & HA) (K & HB) HZ. set (v := fun i => if i <? r then prod_entry q CA A i else K (i - r)).
    apply (independent_le RL integral H01 eq_dec_T (r + s) n v). intros c Hc.
    assert (HS : forall j, j < n -> tadd (sum r (fun i => tmul (c i) (prod_entry q CA A i j))) (sum s (fun i => tmul (c (r + i)) (K i j))) = t0).
    { intros j Hj. rewrite <- (Hc j Hj), sum_split_T. f_equal; apply sum_ext; intros i Hi; unfold v.
      - now replace (i <? r) with true by lia.
      - replace (r + i <? r) with false by lia. now replace (r + i - r) with i by lia. }
    assert (Hb : forall i, i < s -> c (r + i) = t0).
    { apply (HB (fun i => c (r + i))). intros l Hl.
      assert (E1 : sum n (fun j => tmul (sum r (fun i => tmul (c i) (prod_entry q CA A i j))) (B j l)) = t0).
      { rewrite (sum_ext n _ (fun j => sum r (fun i => tmul (c i) (tmul (prod_entry q CA A i j) (B j l))))).
        - rewrite (sum_swap RL). apply (sum_zero RL). intros i Hi. rewrite (sum_mul_l RL).
          assert (E : sum n (fun j => tmul (prod_entry q CA A i j) (B j l)) = t0).
          { change (prod_entry n (prod_entry q CA A) B i l = t0). rewrite (prod_assoc RL). apply (sum_zero RL). intros k Hk. rewrite HZ by assumption. ring. }
          rewrite E. ring.
        - intros j Hj. rewrite <- (sum_mul_r RL). apply sum_ext. intros i Hi. ring. }
      assert (E2 : sum n (fun j => tmul (sum s (fun i => tmul (c (r + i)) (K i j))) (B j l)) = sum s (fun i => tmul (c (r + i)) (prod_entry n K B i l))).
      { rewrite (sum_ext n _ (fun j => sum s (fun i => tmul (c (r + i)) (tmul (K i j) (B j l))))).
        - rewrite (sum_swap RL). apply sum_ext. intros i Hi. now rewrite (sum_mul_l RL).
        - intros j Hj. rewrite <- (sum_mul_r RL). apply sum_ext. intros i Hi. ring. }
      rewrite <- E2. transitivity (tadd (sum n (fun j => tmul (sum r (fun i => tmul (c i) (prod_entry q CA A i j))) (B j l))) (sum n (fun j => tmul (sum s (fun i => tmul (c (r + i)) (K i j))) (B j l)))); [rewrite E1; ring|].
      rewrite <- (sum_add RL). apply (sum_zero RL). intros j Hj.
      transitivity (tmul (tadd (sum r (fun i => tmul (c i) (prod_entry q CA A i j))) (sum s (fun i => tmul (c (r + i)) (K i j)))) (B j l)); [ring|]. rewrite HS by exact Hj. ring. }
    assert (Ha : forall i, i < r -> c i = t0).
    { apply HA. intros j Hj. rewrite <- (HS j Hj). rewrite (sum_zero RL s); [ring|]. intros i Hi. rewrite Hb by exact Hi. ring. }
    intros i Hi. destruct (Nat.lt_ge_cases i r); [now apply Ha|]. rewrite <- (Hb (i - r) ltac:(lia)). f_equal. lia.
  Qed.

  (** the loop *)
  Lemma field_loop_ok : forall l kernel, (forall i ik, nth_error l i = Some ik -> fst ik <= match i with 0 => kernel | S j => snd (nth j l (0, 0)) end) ->
    exists r, field_loop kernel l = Some r /\ length (fst r) = length l /\ snd r = match rev l with [] => kernel | ik :: _ => snd ik end /\
      forall i ik, nth_error l i = Some ik -> nth_error (fst r) i = Some (match i with 0 => kernel | S j => snd (nth j l (0, 0)) end - fst ik).
  Proof.
    induction l as [|[im ker] l IH]; intros kernel H; cbn [field_loop].
    - exists ([], kernel). split; [reflexivity|]. split; [reflexivity|]. split; [reflexivity|]. intros [|i] ik; discriminate.
    - pose proof (H 0 (im, ker) eq_refl) as H0. cbn in H0. unfold subM. replace (im <=? kernel) with true by lia. cbn [obind].
      destruct (IH ker) as (r & E & L & S1 & HN).
      { intros i ik Hi. specialize (H (S i) ik Hi). destruct i as [|j]; exact H. }
      rewrite E. cbn [obind]. eexists. split; [reflexivity|]. cbn [fst snd]. split; [cbn; lia|]. split.
      + rewrite S1. cbn [rev]. destruct (rev l) eqn:Er; reflexivity.
      + intros [|i] ik Hi; cbn [nth_error].
        * injection Hi as <-. reflexivity.
        * rewrite (HN i ik Hi). destruct i; reflexivity.
  Qed.
End FieldHom.
