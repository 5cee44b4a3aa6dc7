(** The loop of the integral homology computation. *)
From Coq Require Import List Arith ZArith Bool Lia ZifyBool ZifyNat Sorted.
From Verif Require Import PidModel LinModel LinSpec LinProofs LinProofs2 LinProofs3 LinProps MatModel MatSpec MatProofs MatProofs2 SnfModel SnfProofs SnfProofs2 SnfProofs3 RankSpec RankProofs HomModel HomSpec HomProofs HomProofs2.
Import ListNotations.
Open Scope nat_scope.

Section Bases.
  Variables (n m : nat) (f S Ri R C Cg : nat -> nat -> Z) (rk : nat).
  Hypothesis HS : smith n m f S Ri R C Cg rk.
  Definition pad (a : nat) (c : list Z) (j : nat) : Z := if j <? a then 0%Z else nth (j - a) c 0%Z.
  Lemma ap_pad a k (M : nat -> nat -> Z) c j : ap (a + k) M (pad a c) j = sum k (fun i => nth i c 0 * M j (a + i)%nat)%Z.
  Proof.
    unfold ap. rewrite sum_split, (sum_zero RZ a).
    - cbn [tadd t0 ops_Z]. rewrite Z.add_0_l. apply sum_ext. intros i Hi. unfold pad. replace (a + i <? a) with false by lia. replace (a + i - a) with i by lia. cbn [tmul ops_Z]. lia.
    - intros i Hi. unfold pad. replace (i <? a) with true by lia. cbn [tmul t0 ops_Z]. lia.
  Qed.
  Lemma nth_repeat0 k i : nth i (repeat 0%Z k) 0%Z = 0%Z.
  Proof. revert i; induction k; intros [|i]; cbn; auto. Qed.

  Lemma kernel_basis vs : length vs = m - rk -> (forall i j, i < m - rk -> j < m -> nth j (nth i vs []) 0%Z = C j (rk + i)) ->
    basis_of m vs (fun x => length x = m /\ forall i, i < n -> ap m f (fun j => nth j x 0%Z) i = 0%Z).
  Proof.
    intros Hl Hv. pose proof HS as (F & IR & IC & D1 & D2 & D3 & D4).
    assert (K : forall c x, combination m c vs x <-> length x = m /\ forall j, j < m -> nth j x 0%Z = ap m C (pad rk c) j).
    { intros c x. unfold combination. rewrite Hl. split; intros [Lx H]; (split; [exact Lx|]); intros j Hj; rewrite H by exact Hj.
      - replace m with (rk + (m - rk)) at 2 by lia. rewrite ap_pad. apply sum_ext. intros i Hi. now rewrite Hv.
      - replace m with (rk + (m - rk)) at 1 by lia. rewrite ap_pad. apply sum_ext. intros i Hi. now rewrite Hv. }
    split.
    - intros x. split.
      + intros [Lx Hx]. pose proof (proj1 (kernel_ok n m f S Ri R C Cg rk HS _) Hx) as Hx'. clear Hx. rename Hx' into Hx. exists (map (fun i => ap m Cg (fun j => nth j x 0%Z) (rk + i)) (seq 0 (m - rk))).
        split; [now rewrite map_length, seq_length|]. apply K. split; [exact Lx|]. intros j Hj. rewrite <- (ap_inv m C Cg (fun j => nth j x 0%Z) j IC Hj).
        apply ap_ext; [reflexivity|]. intros i Hi. unfold pad. destruct (Nat.ltb_spec i rk); [now apply Hx|]. rewrite map_seq_nth by lia. f_equal. lia.
      + intros (c & Lc & Hc). apply K in Hc. destruct Hc as [Lx Hx]. split; [exact Lx|]. apply (proj2 (kernel_ok n m f S Ri R C Cg rk HS _)). intros i Hi.
        rewrite (ap_ext m Cg Cg _ (ap m C (pad rk c))); [|reflexivity|exact Hx]. rewrite ap_inv' by (assumption || lia). unfold pad. now replace (i <? rk) with true by lia.
    - intros c Lc Hc. apply K in Hc. destruct Hc as [_ Hc]. apply (nth_ext _ _ 0%Z 0%Z); [rewrite repeat_length; lia|]. intros i Hi. rewrite nth_repeat0.
      assert (E : ap m Cg (ap m C (pad rk c)) (rk + i) = 0%Z). { apply ap_zero. intros j Hj. rewrite <- Hc by exact Hj. apply nth_repeat0. }
      rewrite ap_inv' in E by (assumption || lia). unfold pad in E. replace (rk + i <? rk) with false in E by lia. now replace (rk + i - rk) with i in E by lia.
  Qed.

  Lemma image_basis vs : length vs = rk -> (forall i j, i < rk -> j < n -> nth j (nth i vs []) 0%Z = (S i i * Ri j i)%Z) ->
    basis_of n vs (fun x => length x = n /\ exists y, forall i, i < n -> nth i x 0%Z = ap m f y i).
  Proof.
    intros Hl Hv. pose proof HS as (F & IR & IC & D1 & D2 & D3 & D4).
    set (w := fun (c : list Z) i => if i <? rk then (S i i * nth i c 0)%Z else 0%Z).
    assert (K : forall c x, combination n c vs x <-> length x = n /\ forall j, j < n -> nth j x 0%Z = ap n Ri (w c) j).
    { intros c x. unfold combination. rewrite Hl.
      assert (E : forall j, j < n -> zsum rk (fun i => nth i c 0%Z * nth j (nth i vs []) 0%Z)%Z = ap n Ri (w c) j).
      { intros j Hj. unfold ap. replace n with (rk + (n - rk)) by lia. rewrite sum_split, (sum_zero RZ (n - rk)).
        - cbn [tadd t0 ops_Z]. rewrite Z.add_0_r. apply sum_ext. intros i Hi. rewrite Hv by assumption. unfold w. replace (i <? rk) with true by lia. cbn [tmul ops_Z]. lia.
        - intros i Hi. unfold w. replace (rk + i <? rk) with false by lia. cbn [tmul t0 ops_Z]. lia. }
      split; intros [Lx H]; (split; [exact Lx|]); intros j Hj; rewrite H by exact Hj; rewrite E by exact Hj; reflexivity. }
    split.
    - intros x. split.
      + intros [Lx Hx]. destruct (proj1 (image_ok n m f S Ri R C Cg rk HS (fun i => nth i x 0%Z)) Hx) as [H1 H2].
        exists (map (fun i => (ap n R (fun j => nth j x 0%Z) i / S i i)%Z) (seq 0 rk)).
        split; [now rewrite map_length, seq_length|]. apply K. split; [exact Lx|]. intros j Hj. rewrite <- (ap_inv' n R Ri (fun j => nth j x 0%Z) j IR Hj).
        apply ap_ext; [reflexivity|]. intros i Hi. unfold w. destruct (Nat.ltb_spec i rk); [|now apply H2]. rewrite map_seq_nth by lia.
        destruct (H1 i ltac:(lia)) as (k & Hk). rewrite Hk. rewrite Z.div_mul by (apply D3; lia). lia.
      + intros (c & Lc & Hc). apply K in Hc. destruct Hc as [Lx Hx]. split; [exact Lx|]. apply (proj2 (image_ok n m f S Ri R C Cg rk HS (fun i => nth i x 0%Z))).
        assert (E : forall i, i < n -> ap n R (fun j => nth j x 0%Z) i = w c i).
        { intros i Hi. rewrite (ap_ext n R R _ (ap n Ri (w c))); [|reflexivity|exact Hx]. now apply ap_inv. }
        split; intros i Hi; rewrite E by lia; unfold w.
        * replace (i <? rk) with true by lia. apply Z.divide_factor_l.
        * now replace (i <? rk) with false by lia.
    - intros c Lc Hc. apply K in Hc. destruct Hc as [_ Hc]. apply (nth_ext _ _ 0%Z 0%Z); [rewrite repeat_length; lia|]. intros i Hi. rewrite nth_repeat0.
      assert (E : ap n R (ap n Ri (w c)) i = 0%Z). { apply ap_zero. intros j Hj. rewrite <- Hc by exact Hj. apply nth_repeat0. }
      rewrite ap_inv in E by (assumption || lia). unfold w in E. replace (i <? rk) with true in E by lia. assert (X := D3 i ltac:(lia)). nia.
  Qed.
End Bases.

Lemma quotient_keep Cyc Bnd r ds : quotient_is Cyc Bnd (group_of r ds) -> quotient_is Cyc Bnd (group_of (free_rank (module_new r ds)) (elementary_divisors (module_new r ds))).
Proof.
  cbn [module_new free_rank elementary_divisors]. intros (phi & P1 & P2 & P3 & P4). rewrite <- keep_group_of. set (ms := group_of r ds) in *.
  assert (Z0 : sel ms (map (fun _ => 0%Z) ms) = map (fun _ => 0%Z) (keep ms)).
  { generalize ms. clear. induction ms as [|x l IH]; cbn; [reflexivity|]. destruct (x =? 1)%Z; cbn; rewrite ?IH; reflexivity. }
  assert (G0 : gelt ms (map (fun _ => 0%Z) ms)) by (unfold gelt; apply map_length).
  exists (fun x => sel ms (phi x)). split; [|split; [|split]].
  - intros x Hx. now apply sel_len, P1.
  - intros x y Hx Hy. rewrite <- sel_gadd by (now apply P1). apply sel_geq. now apply P2.
  - intros x Hx. rewrite <- P3 by exact Hx. rewrite <- Z0. split; [|apply sel_geq]. intros H. apply ins_geq in H.
    eapply geq_trans; [apply geq_sym, ins_sel; now apply P1|]. eapply geq_trans; [exact H|]. now apply ins_sel.
  - intros g Hg. destruct (P4 (ins ms g) (ins_len ms g Hg)) as (x & Hx & E). exists x. split; [exact Hx|]. apply sel_geq in E. rewrite sel_ins in E by exact Hg. exact E.
Qed.
Lemma quotient_ext Cyc Cyc' Bnd Bnd' ms : (forall x, Cyc x <-> Cyc' x) -> (forall x, Cyc x -> (Bnd x <-> Bnd' x)) -> quotient_is Cyc Bnd ms -> quotient_is Cyc' Bnd' ms.
Proof.
  intros HC HB (phi & P1 & P2 & P3 & P4). exists phi. split; [|split; [|split]].
  - intros x Hx. apply P1. now apply HC.
  - intros x y Hx Hy. apply P2; now apply HC.
  - intros x Hx. apply HC in Hx. rewrite P3 by exact Hx. now apply HB.
  - intros g Hg. destruct (P4 g Hg) as (x & Hx & E). exists x. split; [now apply HC|exact E].
Qed.
Lemma basis_ext n vs P Q : (forall x, P x <-> Q x) -> basis_of n vs P -> basis_of n vs Q.
Proof. intros H [B1 B2]. split; [|exact B2]. intros x. rewrite <- H. apply B1. Qed.

(** what is reported in one degree: [e] is the map from the degree above *)
Definition bnds (up : option (mat Z)) (n : nat) (x : list Z) : Prop := match up with Some e => in_image e x | None => x = repeat 0%Z n end.
Definition up_rank (up : option (mat Z)) (r : nat) : Prop := match up with Some e => is_rank (nr e) (nc e) (ent e) r | None => r = 0 end.
Definition deg_ok {B} (cmp : B -> B -> comparison) (up : option (mat Z)) (bm : mat Z * list B) (res : module_ * list (list (Z * B)) * list (list (Z * B))) : Prop :=
  let '(h, cyc, bnd) := res in let d := fst bm in
  quotient_is (in_kernel d) (bnds up (nc d)) (group_of (free_rank h) (elementary_divisors h)) /\
  (exists r r', is_rank (nr d) (nc d) (ent d) r /\ up_rank up r' /\ free_rank h + r + r' = nc d) /\
  (Forall (fun x => fst x <> 0%Z /\ fst x <> 1%Z /\ 0 < snd x) (elementary_divisors h) /\
   StronglySorted Z.divide (flat_map (fun x => repeat (fst x) (snd x)) (elementary_divisors h))) /\
  Forall (canonical_vec cmp) cyc /\ Forall (canonical_vec cmp) bnd /\
  (forall v b, In v cyc \/ In v bnd -> coeff cmp v b <> 0%Z -> In b (snd bm)) /\
  (NoDup (snd bm) -> basis_of (nc d) (map (coords cmp (snd bm)) cyc) (in_kernel d) /\ basis_of (nc d) (map (coords cmp (snd bm)) bnd) (bnds up (nc d))).

(** the loop variables describe the map from above *)
Definition above (up : option (mat Z)) (n : nat) (st : hst) : Prop :=
  exists p A S Ri R C Cg rA, smith n p A S Ri R C Cg rA /\ chain S rA rA /\ up_rank up rA /\
    (forall x, bnds up n x <-> (length x = n /\ exists y, forall i, i < n -> nth i x 0%Z = ap p A y i)) /\
    h_rank st = rA /\ expand (h_divs st) = map (fun i => S i i) (seq 0 rA) /\ Forall (fun x => 0 < snd x) (h_divs st) /\ h_row st = mk n n Ri.

Lemma bnds_some e : wf e -> forall x, bnds (Some e) (nr e) x <-> (length x = nr e /\ exists y, forall i, i < nr e -> nth i x 0%Z = ap (nc e) (ent e) y i).
Proof.
  intros He x. cbn [bnds]. unfold in_image. split; intros [Lx (y & Hy)]; (split; [exact Lx|]).
  - exists (fun j => nth j y 0%Z). destruct Hy as [_ Hy]. exact Hy.
  - exists (map y (seq 0 (nc e))). split; [now rewrite map_length, seq_length|]. intros i Hi. rewrite Hy by exact Hi. apply sum_ext. intros j Hj. cbn [tmul ops_Z]. now rewrite map_seq_nth.
Qed.
Lemma above_top n : 0 < n -> above None n {| h_rank := 0; h_divs := []; h_row := mk n n zid |}.
Proof.
  intros Hn. exists 1, (fun _ _ => 0%Z), (fun _ _ => 0%Z), zid, zid, zid, zid, 0.
  assert (I : forall k, inverse_on k zid zid) by (intros k p q Hp Hq; split; now rewrite (prod_id_l RZ)).
  split; [split; [|split; [apply I|split; [apply I|]]]|].
  - intros p q Hp Hq. rewrite (prod_id_l RZ) by assumption. apply (sum_zero RZ). intros k Hk. reflexivity.
  - repeat split; try lia.
  - split; [intros p q Hp; lia|]. split; [reflexivity|]. split; [|split; [reflexivity|split; [reflexivity|split; [constructor|reflexivity]]]].
    intros x. cbn [bnds]. split.
    + intros ->. split; [apply repeat_length|]. exists (fun _ => 0%Z). intros i Hi. rewrite nth_repeat0. reflexivity.
    + intros [Lx (y & Hy)]. apply (nth_ext _ _ 0%Z 0%Z); [now rewrite repeat_length|]. intros i Hi. rewrite nth_repeat0, Hy by lia. reflexivity.
Qed.

Lemma sorted_map_seq (g : nat -> Z) k s : (forall p q, s <= p -> p < q < s + k -> (g p | g q)%Z) -> StronglySorted Z.divide (map g (seq s k)).
Proof.
  revert s; induction k as [|k IH]; intros s H; cbn [seq map]; [constructor|]. constructor.
  - apply IH. intros p q Hp Hq. apply H; lia.
  - apply Forall_forall. intros x Hx. apply in_map_iff in Hx. destruct Hx as (q & <- & Hq). apply in_seq in Hq. apply H; lia.
Qed.
Lemma sorted_filter {X} (R : X -> X -> Prop) p l : StronglySorted R l -> StronglySorted R (filter p l).
Proof.
  induction 1 as [|x l H1 IH H2]; cbn [filter]; [constructor|]. destruct (p x); [|exact IH]. constructor; [exact IH|]. apply Forall_forall. intros y Hy. apply filter_In in Hy.
  rewrite Forall_forall in H2. now apply H2.
Qed.

Section Step.
  Context {B : Type}.
  Variable cmp : B -> B -> comparison.
  Hypothesis Ht : total_order cmp.

  Lemma nth_skipn' {X} (l : list X) k i d : nth i (skipn k l) d = nth (k + i) l d.
  Proof. revert l; induction k as [|k IH]; intros [|x l]; cbn; auto. now destruct i. Qed.
  Lemma nth_firstn' {X} (l : list X) k i d : i < k -> nth i (firstn k l) d = nth i l d.
  Proof. revert l i; induction k as [|k IH]; intros [|x l] [|i] H; cbn; auto; try lia. apply IH. lia. Qed.

  Lemma coords_nth (bs : list B) v j : j < length bs -> exists b, nth_error bs j = Some b /\ nth j (coords cmp bs v) 0%Z = coeff cmp v b.
  Proof.
    intros Hj. destruct (nth_error bs j) as [b|] eqn:E; [|apply nth_error_None in E; lia]. exists b. split; [reflexivity|].
    apply (nth_error_nth (coords cmp bs v) j 0%Z). unfold coords. now rewrite nth_error_map, E.
  Qed.
  (** scaled boundaries *)
  Lemma scaled_ok (ds : list (Z * nat)) (vs : list (list (Z * B))) : Forall (canonical_vec cmp) vs -> length vs = length (expand ds) ->
    exists us, omapM (fun ix => do d <- divisor_at ds (fst ix); vmul ideal (snd ix) d) (combine (seq 0 (length vs)) vs) = Some us /\ length us = length vs /\
      Forall (canonical_vec cmp) us /\ forall i b, i < length vs -> coeff cmp (nth i us []) b = (nth i (expand ds) 0 * coeff cmp (nth i vs []) b)%Z.
  Proof.
    intros HV HL.
    assert (Y : forall vs s, Forall (canonical_vec cmp) vs -> s + length vs = length (expand ds) ->
      exists us, omapM (fun ix => do d <- divisor_at ds (fst ix); vmul ideal (snd ix) d) (combine (seq s (length vs)) vs) = Some us /\ length us = length vs /\
      Forall (canonical_vec cmp) us /\ forall i b, i < length vs -> coeff cmp (nth i us []) b = (nth (s + i)%nat (expand ds) 0 * coeff cmp (nth i vs []) b)%Z).
    { clear vs HV HL. induction vs as [|v vs IH]; intros s HV HL; cbn [length seq combine omapM].
      - exists []. split; [reflexivity|]. split; [reflexivity|]. split; [constructor|]. intros i b Hi. lia.
      - inversion HV; subst. cbn [fst snd]. rewrite divisor_at_ok. cbn [length] in HL. rewrite (nth_error_nth' _ 0%Z) by lia. cbn [obind].
        destruct (C27_no_panic B cmp v v [] (nth s (expand ds) 0%Z) Ht) as (_ & _ & _ & _ & u & Hu). rewrite Hu. cbn [obind].
        destruct (IH (Datatypes.S s) ltac:(assumption) ltac:(lia)) as (us & E & L1 & L2 & L3). rewrite E. cbn [obind]. exists (u :: us). split; [reflexivity|].
        destruct (C27_scale B ideal cmp v u _ exact_ideal Ht ltac:(assumption) Hu) as [U1 U2].
        split; [cbn; lia|]. split; [now constructor|]. intros [|i] b Hi; cbn [nth].
        + now rewrite Nat.add_0_r, U2.
        + rewrite Nat.add_succ_r. apply (L3 i b). lia. }
    exact (Y vs 0 HV ltac:(lia)).
  Qed.

  Lemma step_ok up (bm : mat Z * list B) st : wf (fst bm) -> 0 < nr (fst bm) -> 0 < nc (fst bm) -> length (snd bm) = nc (fst bm) ->
    above up (nc (fst bm)) st -> (forall x i, bnds up (nc (fst bm)) x -> i < nr (fst bm) -> apply_at (fst bm) x i = 0%Z) ->
    exists res st', hom_step cmp st bm = Some (res, st') /\ deg_ok cmp up bm res /\ above (Some (fst bm)) (nr (fst bm)) st'.
  Proof.
    destruct bm as [d bs]; cbn [fst snd]. intros Hw Hq Hn Hbs (p & A & S & Ri & R & C & Cg & rA & HA & HCh & HU & HB & E1 & E2 & Epos & E3) HZ.
    destruct (snf_ok (nr d) (nc d) (ent d) Hq Hn) as (S2 & Ri2 & R2 & C2 & Ci2 & Cg2 & rk & ES & F1 & F2 & F3 & F4 & F5 & _). rewrite <- (wf_eq_mk d Hw) in ES.
    assert (SM : smith (nr d) (nc d) (ent d) S2 Ri2 R2 C2 Cg2 rk) by (split; [exact F1|split; [exact F2|split; [exact F3|exact F4]]]).
    set (q := nr d) in *. set (n := nc d) in *.
    assert (RKd : is_rank q n (ent d) rk) by (exact (smith_rank _ _ _ _ _ _ _ _ _ SM)).
    assert (HBA : forall u i, i < q -> ap n (ent d) (ap p A u) i = 0%Z).
    { intros u i Hi. rewrite <- (HZ (map (ap p A u) (seq 0 n)) i); [|apply HB|exact Hi].
      - apply sum_ext. intros j Hj. cbn [tmul ops_Z]. now rewrite map_seq_nth.
      - split; [now rewrite map_length, seq_length|]. exists u. intros k Hk. now rewrite map_seq_nth. }
    destruct (homology_ok q n p A (ent d) S Ri R C Cg rA rk Hq HA RKd HBA) as [HR HQ].
    unfold hom_step. cbn [fst snd]. rewrite ES. cbn [obind]. rewrite (rank_of_diag_ok _ _ _ _ F4). cbn [obind nc mk].
    rewrite E1. unfold subM at 1. replace (rk <=? n) with true by lia. cbn [obind]. unfold subM at 1. replace (rA <=? n - rk) with true by lia. cbn [obind].
    rewrite mtranspose_mk. cbn [obind].
    destruct (change_ok cmp Ht n n (fun i j => C2 j i) bs Hbs) as (cyc & EC & LC & HC). rewrite EC. cbn [obind].
    rewrite E3, mtranspose_mk. cbn [obind].
    destruct (change_ok cmp Ht n n (fun i j => Ri j i) bs Hbs) as (bnd & EB & LB & HBn). rewrite EB. cbn [obind].
    assert (D1 : rA <= n) by (destruct HA as (_ & _ & _ & X & _); exact X).
    assert (LF : length (firstn rA bnd) = rA) by (rewrite firstn_length; lia).
    assert (CF : forall (l : list (list (Z * B))), (forall i, i < length l -> canonical_vec cmp (nth i l [])) -> Forall (canonical_vec cmp) l).
    { intros l H. apply Forall_forall. intros v Hv. destruct (In_nth l v [] Hv) as (i & Hi & <-). now apply H. }
    assert (LE : length (expand (h_divs st)) = rA) by (rewrite E2, map_length, seq_length; reflexivity).
    destruct (scaled_ok (h_divs st) (firstn rA bnd)) as (us & EU & LU & CU & HUs).
    { apply CF. intros i Hi. rewrite nth_firstn' by lia. apply HBn. lia. }
    { lia. }
    rewrite LF in EU. rewrite EU. cbn [obind].
    rewrite (omapM_some _ (fun i => S2 i i)) by (intros i Hi; apply in_seq in Hi; destruct F4 as (X1 & X2 & _); apply mget_in; lia). cbn [obind].
    eexists _, _. split; [reflexivity|]. split.
    - (* the reported data *)
      assert (G : forall v b, In v (skipn rk cyc) \/ In v us -> coeff cmp v b <> 0%Z -> In b bs).
      { intros v b Hv Hne.
        assert (X : (forall x, cmp x b = Eq -> In x bs -> False) -> False).
        { intros HF. apply Hne. destruct Hv as [Hv|Hv].
          - destruct (In_nth _ v [] Hv) as (i & Hi & <-). rewrite skipn_length in Hi. rewrite nth_skipn'. rewrite (proj2 (HC (rk + i) ltac:(lia)) b).
            apply (sum_zero RZ). intros j Hj. cbn [t0 ops_Z]. destruct (nth_error bs j) as [x|] eqn:Ex; cbn [ind]; [|lia]. destruct (cmp x b) eqn:Ec; try lia. exfalso. apply (HF x Ec). now apply nth_error_In in Ex.
          - destruct (In_nth _ v [] Hv) as (i & Hi & <-). assert (Hi' : i < rA) by (rewrite <- LF, <- LU; exact Hi). rewrite HUs by (rewrite LF; exact Hi'). rewrite nth_firstn' by lia. rewrite (proj2 (HBn i ltac:(lia)) b). rewrite (sum_zero RZ); [cbn [t0 ops_Z]; lia|].
            intros j Hj. cbn [t0 ops_Z]. destruct (nth_error bs j) as [x|] eqn:Ex; cbn [ind]; [|lia]. destruct (cmp x b) eqn:Ec; try lia. exfalso. apply (HF x Ec). now apply nth_error_In in Ex. }
        assert (Dec : forall x y : B, {x = y} + {x <> y}).
        { intros x y. destruct (cmp x y) eqn:E; [left; now apply Ht|right|right]; intros ->; rewrite (proj2 (proj1 Ht y y) eq_refl) in E; discriminate. }
        destruct (in_dec Dec b bs) as [Hin|Hni]; [exact Hin|]. exfalso. apply X. intros x Ex Hx. apply Ht in Ex. subst. contradiction. }
      cbn [deg_ok fst snd]. fold n. split; [|split; [|split; [|split; [|split; [|split]]]]].
      + apply quotient_keep. eapply quotient_ext; [| |].
        3:{ replace (group_of (n - rk - rA) (h_divs st)) with (repeat 0%Z (n - rk - rA) ++ map (fun i => S i i) (seq 0 rA)) by (unfold group_of; now rewrite <- E2). exact HQ. }
        * intros x. reflexivity.
        * intros x Hx. symmetry. apply HB.
      + exists rk, rA. split; [exact RKd|]. split; [exact HU|]. cbn [module_new free_rank]. lia.
      + cbn [module_new elementary_divisors].
        assert (NZ : forall z, In z (expand (h_divs st)) -> z <> 0%Z).
        { intros z Hz. rewrite E2 in Hz. apply in_map_iff in Hz. destruct Hz as (i & <- & Hi). apply in_seq in Hi. destruct HA as (_ & _ & _ & _ & _ & D3 & _). apply D3. lia. }
        split.
        * apply Forall_forall. intros [z k] Hz. apply filter_In in Hz. destruct Hz as [Hz H1]. cbn [fst snd] in *. rewrite Forall_forall in Epos. pose proof (Epos _ Hz) as P0. cbn [snd] in P0.
          split; [|split; [|exact P0]]; [|destruct (Z.eqb_spec z 1); [discriminate|assumption]]. apply NZ. unfold expand. apply in_flat_map. exists (z, k). split; [exact Hz|]. cbn [fst snd]. destruct k; [lia|]. now left.
        * pose proof (keep_group_of 0 (h_divs st)) as KG. unfold group_of in KG. cbn [repeat app] in KG. rewrite <- KG. fold (expand (h_divs st)). unfold keep. apply sorted_filter. rewrite E2. apply sorted_map_seq.
          intros a b Ha Hb. apply (HCh a b); lia.
      + apply CF. intros i Hi. rewrite skipn_length in Hi. rewrite nth_skipn'. apply HC. lia.
      + exact CU.
      + exact G.
      + intros ND. split.
        * eapply basis_ext; [|apply (kernel_basis q n (ent d) S2 Ri2 R2 C2 Cg2 rk SM)].
          -- intros x. reflexivity.
          -- rewrite map_length, skipn_length. lia.
          -- intros i j Hi Hj. rewrite (nth_indep _ [] (coords cmp bs [])) by (rewrite map_length, skipn_length; lia). rewrite map_nth, nth_skipn'.
             destruct (coords_nth bs (nth (rk + i) cyc []) j ltac:(lia)) as (b & Eb & ->). rewrite (proj2 (HC (rk + i) ltac:(lia)) b). exact (ind_distinct cmp Ht bs n (fun l => C2 l (rk + i)) j b ND Hbs Eb).
        * eapply basis_ext; [|apply (image_basis n p A S Ri R C Cg rA HA)].
          -- intros x. symmetry. apply HB.
          -- rewrite map_length. etransitivity; [exact LU|exact LF].
          -- intros i j Hi Hj. rewrite (nth_indep _ [] (coords cmp bs [])) by (rewrite map_length; refine (eq_ind_r (fun z => i < z) Hi _); etransitivity; [exact LU|exact LF]). rewrite map_nth.
             destruct (coords_nth bs (nth i us []) j ltac:(lia)) as (b & Eb & Eq). etransitivity; [exact Eq|]. rewrite HUs by (rewrite LF; lia). rewrite nth_firstn' by lia. rewrite (proj2 (HBn i ltac:(lia)) b), E2, map_seq_nth by lia. f_equal.
             exact (ind_distinct cmp Ht bs n (fun l => Ri l i) j b ND Hbs Eb).
    - exists n, (ent d), S2, Ri2, R2, C2, Cg2, rk. split; [exact SM|]. split; [exact F5|]. split; [exact RKd|]. split; [apply bnds_some; exact Hw|].
      cbn [h_rank h_divs h_row]. split; [reflexivity|]. split; [apply expand_fold|]. split; [apply fold_pos; constructor|reflexivity].
  Qed.

  (** the whole run; [l] is given highest degree first *)
  Fixpoint chainable (up : option (mat Z)) (l : list (mat Z * list B)) : Prop :=
    match l with
    | [] => True
    | bm :: t => wf (fst bm) /\ 0 < nr (fst bm) /\ 0 < nc (fst bm) /\ length (snd bm) = nc (fst bm) /\
        (forall e, up = Some e -> nr e = nc (fst bm)) /\
        (forall x i, bnds up (nc (fst bm)) x -> i < nr (fst bm) -> apply_at (fst bm) x i = 0%Z) /\ chainable (Some (fst bm)) t
    end.
  Lemma run_ok l : forall up st, chainable up l -> (forall bm, hd_error l = Some bm -> above up (nc (fst bm)) st) ->
    exists out, hom_run cmp st l = Some out /\ length out = length l /\
      forall k res, nth_error out k = Some res -> exists bm, nth_error (rev l) k = Some bm /\
        deg_ok cmp (match nth_error (rev l) (k + 1) with Some b => Some (fst b) | None => up end) bm res.
  Proof.
    induction l as [|bm t IH]; intros up st HCh HA; cbn [hom_run].
    - exists []. split; [reflexivity|]. split; [reflexivity|]. intros [|k] res; discriminate.
    - destruct HCh as (C1 & C2 & C3 & C4 & C5 & C6 & C7).
      destruct (step_ok up bm st C1 C2 C3 C4 (HA bm eq_refl) C6) as (res & st' & E & HD & HA'). rewrite E. cbn [obind fst snd].
      destruct (IH (Some (fst bm)) st' C7) as (out & EO & LO & HO).
      { intros b' Hb'. destruct t as [|b'' t]; [discriminate|]. injection Hb' as ->. destruct C7 as (_ & _ & _ & _ & C8 & _). rewrite <- (C8 (fst bm) eq_refl). exact HA'. }
      rewrite EO. cbn [obind]. exists (out ++ [res]). split; [reflexivity|]. split; [rewrite app_length; cbn; lia|].
      intros k r Hr. cbn [rev]. destruct (Nat.lt_ge_cases k (length t)) as [Hk|Hk].
      + rewrite nth_error_app1 in Hr by lia. destruct (HO k r Hr) as (b & Eb & HDb). exists b. rewrite nth_error_app1 by (rewrite rev_length; lia). split; [exact Eb|].
        destruct (Nat.eq_dec (k + 1) (length t)) as [Hk1|Hk1].
        * rewrite (proj2 (nth_error_None (rev t) (k + 1))) in HDb by (rewrite rev_length; lia). rewrite nth_error_app2 by (rewrite rev_length; lia). rewrite rev_length. replace (k + 1 - length t) with 0 by lia. exact HDb.
        * rewrite nth_error_app1 by (rewrite rev_length; lia). destruct (nth_error (rev t) (k + 1)) eqn:X; [exact HDb|]. apply nth_error_None in X. rewrite rev_length in X. lia.
      + assert (k = length t). { destruct (Nat.eq_dec k (length t)); [assumption|]. assert (nth_error (out ++ [res]) k <> None) by congruence. apply nth_error_Some in H. rewrite app_length in H. cbn in H. lia. }
        subst k. rewrite nth_error_app2 in Hr by lia. rewrite LO, Nat.sub_diag in Hr. injection Hr as <-. exists bm. rewrite !nth_error_app2 by (rewrite rev_length; lia). rewrite !rev_length, Nat.sub_diag.
        split; [reflexivity|]. replace (length t + 1 - length t) with 1 by lia. exact HD.
  Qed.
End Step.
