(** Laws of the determinant: linear in every row, zero for equal rows, one for the identity. *)
From Coq Require Import List Arith Bool Lia ZifyBool Ring_theory Ring.
From Verif Require Import PidModel MatModel MatSpec MatProofs MatProofs2 RankModel LuSpec.
Import ListNotations.
Open Scope nat_scope.

Section Det.
  Context {T : Type} {OT : Ops T}.
  Hypothesis RL : ring_theory t0 t1 tadd tmul tsub topp (@eq T).
  Add Ring TDet : RL.
  Local Notation "a +! b" := (tadd a b) (at level 50, left associativity).
  Local Notation "a *! b" := (tmul a b) (at level 40, left associativity).

  Lemma det_S n (A : nat -> nat -> T) : determinant (S n) A = sum (S n) (fun i => signed i (A i 0 *! determinant n (minor A i))).
  Proof. reflexivity. Qed.
  Lemma det_ext n : forall A B : nat -> nat -> T, (forall i j, i < n -> j < n -> A i j = B i j) -> determinant n A = determinant n B.
  Proof.
    induction n as [|n IH]; intros A B H; [reflexivity|]. rewrite !det_S. apply (sum_ext (O := OT)). intros i Hi. rewrite H by lia. f_equal. f_equal.
    apply IH. intros r c Hr Hc. unfold minor. apply H; destruct (r <? i) eqn:E; lia.
  Qed.
  Lemma signed_lin i c x y : signed i (x +! c *! y) = signed i x +! c *! signed i y.
  Proof. unfold signed. destruct (Nat.even i); ring. Qed.
  (** Row [q] replaced by [u]. *)
  Definition put (q : nat) (u : nat -> T) (A : nat -> nat -> T) : nat -> nat -> T := fun i j => if i =? q then u j else A i j.
  Lemma minor_put_same q u A r c : minor (put q u A) q r c = minor A q r c.
  Proof. unfold minor, put. destruct (Nat.ltb_spec r q); destruct (Nat.eqb_spec r q), (Nat.eqb_spec (S r) q); try lia; reflexivity. Qed.
  Lemma minor_put_other q i u A r c : i <> q -> minor (put q u A) i r c = put (if q <? i then q else q - 1) (fun j => u (S j)) (minor A i) r c.
  Proof.
    intros N. unfold minor, put. destruct (Nat.ltb_spec r i), (Nat.ltb_spec q i).
    - destruct (Nat.eqb_spec r q); reflexivity.
    - destruct (Nat.eqb_spec r q), (Nat.eqb_spec r (q - 1)); try lia; reflexivity.
    - destruct (Nat.eqb_spec (S r) q), (Nat.eqb_spec r q); try lia; reflexivity.
    - destruct (Nat.eqb_spec (S r) q), (Nat.eqb_spec r (q - 1)); try lia; reflexivity.
  Qed.
  Theorem det_row_linear n : forall A q u v c, q < n ->
    determinant n (put q (fun j => u j +! c *! v j) A) = determinant n (put q u A) +! c *! determinant n (put q v A).
  Proof.
    induction n as [|n IH]; intros A q u v c Hq; [lia|]. rewrite !det_S, <- (sum_mul_l RL), <- (sum_add RL). apply sum_ext. intros i Hi.
    rewrite <- signed_lin. f_equal. destruct (Nat.eq_dec i q) as [->|N].
    - assert (forall w, determinant n (minor (put q w A) q) = determinant n (minor A q)) as E by (intros w; apply det_ext; intros; apply minor_put_same).
      rewrite !E. unfold put. rewrite Nat.eqb_refl. ring.
    - assert (forall w, determinant n (minor (put q w A) i) = determinant n (put (if q <? i then q else q - 1) (fun j => w (S j)) (minor A i))) as E
        by (intros w; apply det_ext; intros; now apply minor_put_other).
      rewrite !E. rewrite (IH _ _ (fun j => u (S j)) (fun j => v (S j))) by (destruct (Nat.ltb_spec q i); lia).
      assert (forall w, put q w A i 0 = A i 0) as Ep by (intros w; unfold put; destruct (Nat.eqb_spec i q); [lia|reflexivity]). rewrite !Ep. ring.
  Qed.
  (** Two adjacent equal rows. *)
  Lemma det_adjacent n : forall A p, S p < n -> (forall j, j < n -> A p j = A (S p) j) -> determinant n A = t0.
  Proof.
    induction n as [|n IH]; intros A p Hp H; [lia|]. rewrite det_S.
    transitivity (sum (S n) (fun _ => t0)); [|now apply (sum_zero RL)]. apply (sum_two RL (S n) p (S p)); try lia.
    - intros i Hi N1 N2. rewrite (IH (minor A i) (if p <? i then p else p - 1)).
      + unfold signed. destruct (Nat.even i); ring.
      + destruct (Nat.ltb_spec p i); lia.
      + intros j Hj. unfold minor. destruct (Nat.ltb_spec p i).
        * destruct (Nat.ltb_spec p i), (Nat.ltb_spec (S p) i); try lia. apply H. lia.
        * destruct (Nat.ltb_spec (p - 1) i), (Nat.ltb_spec (S (p - 1)) i); try lia. replace (S (p - 1)) with p by lia. apply H. lia.
    - rewrite <- (H 0) by lia. rewrite (det_ext n (minor A (S p)) (minor A p)).
      + unfold signed. rewrite Nat.even_succ, <- Nat.negb_even. destruct (Nat.even p); cbn; ring.
      + intros i j Hi Hj. unfold minor. destruct (Nat.ltb_spec i p), (Nat.ltb_spec i (S p)); try lia; try reflexivity. assert (i = p) as -> by lia. apply H. lia.
  Qed.
  Lemma put_put q u v A i j : put q u (put q v A) i j = put q u A i j.
  Proof. unfold put. destruct (i =? q); reflexivity. Qed.
  Lemma put_comm q p u v A i j : p <> q -> put q u (put p v A) i j = put p v (put q u A) i j.
  Proof. intros N. unfold put. destruct (Nat.eqb_spec i q), (Nat.eqb_spec i p); congruence. Qed.
  Lemma put_self q A i j : put q (A q) A i j = A i j.
  Proof. unfold put. destruct (Nat.eqb_spec i q) as [->|]; reflexivity. Qed.
  (** Exchanging adjacent rows changes the sign. *)
  Lemma det_swap n A p : S p < n -> determinant n (put p (A (S p)) (put (S p) (A p) A)) = topp (determinant n A).
  Proof.
    intros Hp. set (D u v := determinant n (put p u (put (S p) v A))).
    assert (forall u, D u u = t0) as D0.
    { intros u. apply (det_adjacent n _ p Hp). intros j Hj. unfold put. rewrite !Nat.eqb_refl. destruct (Nat.eqb_spec (S p) p); [lia|]. reflexivity. }
    assert (forall u u' v, D (fun j => u j +! t1 *! u' j) v = D u v +! t1 *! D u' v) as L1 by (intros; apply det_row_linear; lia).
    assert (forall u v v', D u (fun j => v j +! t1 *! v' j) = D u v +! t1 *! D u v') as L2.
    { intros u v v'. unfold D. assert (forall w, determinant n (put p u (put (S p) w A)) = determinant n (put (S p) w (put p u A))) as E by (intros w; apply det_ext; intros; apply put_comm; lia).
      rewrite !E. apply det_row_linear. lia. }
    pose proof (D0 (fun j => A p j +! t1 *! A (S p) j)) as E. rewrite L1, !L2, (D0 (A p)), (D0 (A (S p))) in E.
    assert (D (A p) (A (S p)) = determinant n A) as EA.
    { unfold D. apply det_ext. intros i j _ _. unfold put. destruct (Nat.eqb_spec i p) as [->|]; [reflexivity|]. destruct (Nat.eqb_spec i (S p)) as [->|]; reflexivity. }
    rewrite EA in E. fold (D (A (S p)) (A p)). transitivity (t0 +! t1 *! determinant n A +! t1 *! (D (A (S p)) (A p) +! t1 *! t0) +! topp (determinant n A)); [ring|]. rewrite E. ring.
  Qed.
  Theorem det_equal_rows n : forall A p q, p < q -> q < n -> (forall j, j < n -> A p j = A q j) -> determinant n A = t0.
  Proof.
    intros A p q Hpq. revert A. induction q as [|q IH]; intros A Hq H; [lia|]. destruct (Nat.eq_dec p q) as [->|N]; [now apply (det_adjacent n A q)|].
    assert (determinant n (put q (A (S q)) (put (S q) (A q) A)) = t0) as E.
    { apply IH; [lia|lia|]. intros j Hj. unfold put. rewrite Nat.eqb_refl. destruct (Nat.eqb_spec p q); [lia|]. destruct (Nat.eqb_spec p (S q)); [lia|]. now apply H. }
    rewrite det_swap in E by lia. transitivity (topp (topp (determinant n A))); [ring|]. rewrite E. ring.
  Qed.
  (** Adding a multiple of a row to another one. *)
  Theorem det_row_op n A p q c : p < n -> q < n -> p <> q -> determinant n (put q (fun j => A q j +! c *! A p j) A) = determinant n A.
  Proof.
    intros Hp Hq N. rewrite (det_row_linear n A q (A q) (A p) c Hq).
    rewrite (det_ext n (put q (A q) A) A) by (intros; apply put_self).
    assert (determinant n (put q (A p) A) = t0) as ->.
    { destruct (Nat.lt_ge_cases p q).
      - apply (det_equal_rows n _ p q); [lia|lia|]. intros j Hj. unfold put. rewrite Nat.eqb_refl. destruct (Nat.eqb_spec p q); [lia|]. reflexivity.
      - apply (det_equal_rows n _ q p); [lia|lia|]. intros j Hj. unfold put. rewrite Nat.eqb_refl. destruct (Nat.eqb_spec p q); [lia|]. reflexivity. }
    ring.
  Qed.
  Theorem det_identity n : determinant n (id_entry (T := T)) = t1.
  Proof.
    induction n as [|n IH]; [reflexivity|]. rewrite det_S. rewrite (sum_single RL (S n) 0); [|lia|].
    - rewrite (det_ext n (minor id_entry 0) id_entry) by (intros; reflexivity). rewrite IH. unfold signed, id_entry. cbn. ring.
    - intros i Hi N. assert (id_entry (T := T) i 0 = t0) as -> by (unfold id_entry; destruct (Nat.eqb_spec i 0); [lia|reflexivity]). unfold signed. destruct (Nat.even i); ring.
  Qed.
  (** A first column that is zero below the diagonal. *)
  Lemma det_first_column n A : (forall i, 0 < i < S n -> A i 0 = t0) -> determinant (S n) A = A 0 0 *! determinant n (fun i j => A (S i) (S j)).
  Proof.
    intros H. rewrite det_S. rewrite (sum_single RL (S n) 0); [|lia|].
    - reflexivity.
    - intros i Hi N. rewrite H by lia. unfold signed. destruct (Nat.even i); ring.
  Qed.
  (** Elimination of the first column. *)
  Lemma det_clear n A (c : nat -> T) : determinant (S n) (fun i j => if i =? 0 then A 0 j else A i j +! c i *! A 0 j) = determinant (S n) A.
  Proof.
    assert (forall t, t <= n -> determinant (S n) (fun i j => if (i =? 0) || (t <? i) then A i j else A i j +! c i *! A 0 j) = determinant (S n) A) as K.
    { induction t as [|t IH]; intros Ht.
      - apply det_ext. intros i j _ _. destruct (Nat.eqb_spec i 0), (Nat.ltb_spec 0 i); try lia; reflexivity.
      - rewrite <- IH by lia. set (B := fun i j => if (i =? 0) || (t <? i) then A i j else A i j +! c i *! A 0 j).
        rewrite <- (det_row_op (S n) B 0 (S t) (c (S t))) by lia. apply det_ext. intros i j Hi Hj. unfold put, B.
        destruct (Nat.eqb_spec i (S t)) as [->|].
        + destruct (Nat.eqb_spec (S t) 0), (Nat.ltb_spec (S t) (S t)), (Nat.ltb_spec t (S t)); try lia. reflexivity.
        + destruct (Nat.eqb_spec i 0), (Nat.ltb_spec (S t) i), (Nat.ltb_spec t i); try lia; reflexivity. }
    rewrite <- (K n) by lia. apply det_ext. intros i j Hi _. destruct (Nat.eqb_spec i 0) as [e|], (Nat.ltb_spec n i); try lia; [rewrite e|]; reflexivity.
  Qed.
End Det.
