(** Smith form of matrices whose columns have at most one 1 and at most one -1 (incidence matrices of graphs): every value that is
    ever computed is -1, 0 or 1. *)
From Coq Require Import List Arith ZArith Bool Lia ZifyBool ZifyNat.
From Verif Require Import PidModel PidProofs MatModel MatSpec MatProofs MatProofs2 SnfModel SnfProofs SnfProofs2 SnfChkModel.
Import ListNotations.
Open Scope nat_scope.

Definition unit_range (z : Z) : Prop := (-1 <= z <= 1)%Z.
(** 1 if the place is the row r. *)
Definition dl (o : option nat) (r : nat) : Z := match o with Some x => if x =? r then 1%Z else 0%Z | None => 0%Z end.
Lemma dl_cases o r : (o = Some r /\ dl o r = 1%Z) \/ (o <> Some r /\ dl o r = 0%Z).
Proof.
  destruct o as [x|]; cbn; [|right; split; congruence]. destruct (Nat.eqb_spec x r) as [->|N]; [left|right]; split; congruence.
Qed.

Section Pol.
  Variable pl : policy.
  Hypothesis Har : forall z, unit_range z -> p_ar pl z = Some z.
  Hypothesis Hdiv : forall z, unit_range z -> p_div pl z = Some z.

  Set Default Proof Using "All".
  Lemma mscale_p_mk n m (f : efun) c : (forall p q, p < n -> q < m -> unit_range (f p q * c)) ->
    mscale_p pl (mk n m f) c = Some (mk n m (fun p q => f p q * c)%Z).
  Proof.
    intros H. transitivity (mscale (mk n m f) c); [|exact (mscale_mk (O := ops_Z) n m f c)]. unfold mscale_p, mscale. cbn [nr nc mk]. fold (mk n m f). unfold mbuild.
    assert (E : forall (F G : nat -> nat -> option Z), (forall i j, i < n -> j < m -> F i j = G i j) ->
      omapM (fun i => omapM (F i) (seq 0 m)) (seq 0 n) = omapM (fun i => omapM (G i) (seq 0 m)) (seq 0 n)).
    { intros F G HFG. assert (X : forall l, (forall i, In i l -> i < n) -> omapM (fun i => omapM (F i) (seq 0 m)) l = omapM (fun i => omapM (G i) (seq 0 m)) l).
      { induction l as [|i l IH]; intros Hl; cbn [omapM]; [reflexivity|]. rewrite IH by (intros; apply Hl; now right).
        replace (omapM (F i) (seq 0 m)) with (omapM (G i) (seq 0 m)); [reflexivity|].
        assert (Hi : i < n) by (apply Hl; now left).
        assert (Y : forall t, (forall j, In j t -> j < m) -> omapM (G i) t = omapM (F i) t).
        { induction t as [|j t IHt]; intros Ht; cbn [omapM]; [reflexivity|]. rewrite IHt by (intros; apply Ht; now right). rewrite HFG by (try assumption; apply Ht; now left). reflexivity. }
        apply Y. intros j Hj. apply in_seq in Hj. lia. }
      apply X. intros i Hi. apply in_seq in Hi. lia. }
    rewrite (E _ (fun i j => do a <- mget (mk n m f) i j; Some (tmul a c))); [reflexivity|].
    intros i j Hi Hj. rewrite mget_in by lia. cbn [obind]. now apply Har, H.
  Qed.
  Lemma row_operation_p_mk n m (f : efun) i k s : i < n -> k < n -> i <> k -> (forall q, q < m -> unit_range (f k q * s)) ->
    (forall q, q < m -> unit_range (f i q + f k q * s)) ->
    row_operation_p pl (mk n m f) i k s = Some (mk n m (rblk i k 1 s 0 1 f)).
  Proof.
    intros Hi Hk Hne H1 H2. unfold row_operation_p. rewrite mrow_mk by assumption. cbn [obind]. rewrite mscale_p_mk by (intros; now apply H1).
    cbn [obind nc mk]. fold (mk n m f).
    rewrite (foldM_seq0 _ (fun t => mk n m (fun p q => if (p =? i) && (q <? t) then (f i q + f k q * s)%Z else f p q))).
    - f_equal. apply mk_ext. intros p q Hp Hq. replace (q <? m) with true by lia. rewrite andb_true_r. unfold rblk.
      destruct (p =? i); [ring|]. destruct (Nat.eqb_spec p k); [subst; ring|reflexivity].
    - apply mk_ext. intros p q _ _. replace (q <? 0) with false by lia. now rewrite andb_false_r.
    - intros t Ht. rewrite !mget_in by lia. cbn [obind]. rewrite Nat.eqb_refl. replace (t <? t) with false by lia. cbn [andb].
      rewrite Har by (now apply H2). cbn [obind]. rewrite mset_mk by assumption.
      f_equal. apply mk_ext. intros p q Hp Hq.
      destruct (Nat.eqb_spec p i) as [->|]; cbn [andb]; [|reflexivity]. destruct (Nat.eqb_spec q t) as [->|].
      + now replace (t <? t + 1) with true by lia.
      + now replace (q <? t + 1) with (q <? t) by lia.
  Qed.
  Lemma col_operation_p_mk n m (f : efun) i k s : i < m -> k < m -> i <> k -> (forall p, p < n -> unit_range (f p k * s)) ->
    (forall p, p < n -> unit_range (f p i + f p k * s)) ->
    col_operation_p pl (mk n m f) i k s = Some (mk n m (cblk i k 1 s 0 1 f)).
  Proof.
    intros Hi Hk Hne H1 H2. unfold col_operation_p. rewrite mcol_mk by assumption. cbn [obind]. rewrite mscale_p_mk by (intros; now apply H1).
    cbn [obind nr mk]. fold (mk n m f).
    rewrite (foldM_seq0 _ (fun t => mk n m (fun p q => if (q =? i) && (p <? t) then (f p i + f p k * s)%Z else f p q))).
    - f_equal. apply mk_ext. intros p q Hp Hq. replace (p <? n) with true by lia. rewrite andb_true_r. unfold cblk.
      destruct (q =? i); [ring|]. destruct (Nat.eqb_spec q k); [subst; ring|reflexivity].
    - apply mk_ext. intros p q _ _. replace (p <? 0) with false by lia. now rewrite andb_false_r.
    - intros t Ht. rewrite !mget_in by lia. cbn [obind]. rewrite Nat.eqb_refl. replace (t <? t) with false by lia. cbn [andb].
      rewrite Har by (now apply H2). cbn [obind]. rewrite mset_mk by assumption.
      f_equal. apply mk_ext. intros p q Hp Hq.
      destruct (Nat.eqb_spec q i) as [->|]; cbn [andb]; [|rewrite andb_false_r; reflexivity]. destruct (Nat.eqb_spec p t) as [->|]; cbn [andb].
      + now replace (t <? t + 1) with true by lia.
      + now replace (p <? t + 1) with (p <? t) by lia.
  Qed.
  Lemma euclid_p_unit a p : (p = 1 \/ p = -1)%Z -> unit_range a -> euclid_div_p pl a p = Some ((p * a)%Z, 0%Z).
  Proof.
    intros Hp Ha. unfold unit_range in *. assert (Hc : (a = -1 \/ a = 0 \/ a = 1)%Z) by lia.
    unfold euclid_div_p. destruct Hp as [->| ->]; destruct Hc as [->|[->| ->]]; cbn; rewrite Hdiv by (unfold unit_range; lia); reflexivity.
  Qed.
  Lemma quot_p_unit a p : (p = 1 \/ p = -1)%Z -> unit_range a -> quotM_p pl a p = Some (p * a)%Z.
  Proof. intros Hp Ha. unfold quotM_p. now rewrite euclid_p_unit. Qed.
  Lemma divides_p_unit a p : (p = 1 \/ p = -1)%Z -> unit_range a -> divides_p pl p a = Some true.
  Proof. intros Hp Ha. unfold divides_p. now rewrite euclid_p_unit. Qed.
  Lemma dassert_true b : b = Some true -> dassert pl b = Some tt.
  Proof. intros ->. unfold dassert. now destruct (p_dbg pl). Qed.
End Pol.
