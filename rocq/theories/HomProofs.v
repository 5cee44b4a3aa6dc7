(** Kernels, images and the homology of two composable maps, from Smith normal forms. *)
From Coq Require Import List Arith ZArith Bool Lia ZifyBool ZifyNat.
From Verif Require Import PidModel LinModel LinSpec LinProofs3 MatModel MatSpec MatProofs MatProofs2 SnfModel SnfProofs SnfProofs2 SnfProofs3 RankSpec RankProofs HomModel HomSpec.
Import ListNotations.
Open Scope nat_scope.

Lemma integral_Z (x y : Z) : tmul x y = t0 -> x <> t0 -> y = t0.
Proof. cbn [tmul t0 ops_Z]. nia. Qed.
Lemma one_zero_Z : t1 <> t0 :> Z. Proof. discriminate. Qed.
Definition rank_le_Z n m f r := rank_le RZ integral_Z one_zero_Z Z.eq_dec n m f r.
Definition steinitz_Z m r v := steinitz RZ integral_Z one_zero_Z Z.eq_dec m r v.

(** matrix times vector *)
Definition ap (m : nat) (f : nat -> nat -> Z) (u : nat -> Z) (i : nat) : Z := sum m (fun j => tmul (f i j) (u j)).
Lemma ap_col m f u i : ap m f u i = zprod m f (fun a _ => u a) i 0. Proof. reflexivity. Qed.
Lemma ap_prod n m f g u i : ap m (zprod n f g) u i = ap n f (ap m g u) i.
Proof. rewrite ap_col, (prod_assoc RZ). reflexivity. Qed.
Lemma ap_ext m f g u v i : (forall j, j < m -> f i j = g i j) -> (forall j, j < m -> u j = v j) -> ap m f u i = ap m g v i.
Proof. intros H1 H2. apply sum_ext. intros j Hj. now rewrite H1, H2. Qed.
Lemma ap_id n u i : i < n -> ap n zid u i = u i.
Proof. intros Hi. rewrite ap_col. now rewrite (prod_id_l RZ). Qed.
Lemma ap_zero m f u i : (forall j, j < m -> u j = 0%Z) -> ap m f u i = 0%Z.
Proof. intros H. apply (sum_zero RZ). intros j Hj. rewrite H by exact Hj. cbn [tmul t0 ops_Z]. lia. Qed.
Lemma ap_add m f u v i : ap m f (fun j => (u j + v j)%Z) i = (ap m f u i + ap m f v i)%Z.
Proof. unfold ap. change Z.add with (tadd (T := Z)). rewrite <- (sum_add RZ). apply sum_ext. intros j Hj. cbn [tadd tmul ops_Z]. lia. Qed.
Lemma ap_inv n A A' u i : inverse_on n A A' -> i < n -> ap n A (ap n A' u) i = u i.
Proof. intros H Hi. rewrite <- ap_prod. rewrite (ap_ext n _ zid u u); [now apply ap_id| |auto]. intros j Hj. now apply H. Qed.
Lemma ap_inv' n A A' u i : inverse_on n A A' -> i < n -> ap n A' (ap n A u) i = u i.
Proof. intros H Hi. rewrite <- ap_prod. rewrite (ap_ext n _ zid u u); [now apply ap_id| |auto]. intros j Hj. now apply H. Qed.
Lemma sum_split a b (g : nat -> Z) : sum (a + b) g = tadd (sum a g) (sum b (fun j => g (a + j))).
Proof.
  induction b as [|b IH]; [rewrite Nat.add_0_r; cbn [sum tadd t0 ops_Z]; lia|]. rewrite Nat.add_succ_r. cbn [sum]. rewrite IH. cbn [tadd ops_Z]. lia.
Qed.

(** Smith data of an [n x m] matrix: R f C = S diagonal of rank [rk]. *)
Definition smith (n m : nat) (f S Ri R C Cg : nat -> nat -> Z) (rk : nat) : Prop :=
  factors n m f S R C /\ inverse_on n R Ri /\ inverse_on m C Cg /\ Diag n m S rk.

Section Smith.
  Variables (n m : nat) (f S Ri R C Cg : nat -> nat -> Z) (rk : nat).
  Hypothesis HS : smith n m f S Ri R C Cg rk.
  Lemma RfS u i : i < n -> ap n R (ap m f u) i = ap m S (ap m Cg u) i.
  Proof.
    destruct HS as (F & IR & IC & _). intros Hi.
    transitivity (ap m (zprod n R (zprod m f C)) (ap m Cg u) i).
    - rewrite ap_prod. apply ap_ext; [reflexivity|]. intros j Hj. rewrite ap_prod. apply ap_ext; [reflexivity|]. intros k Hk. symmetry. now apply ap_inv.
    - apply ap_ext; [|reflexivity]. intros j Hj. now apply F.
  Qed.
  Lemma fCS u i : i < n -> ap m f (ap m C u) i = ap n Ri (ap m S u) i.
  Proof.
    intros Hi. destruct HS as (F & IR & IC & _). rewrite <- (ap_inv' n R Ri (ap m f (ap m C u)) i IR Hi). apply ap_ext; [reflexivity|]. intros j Hj.
    rewrite RfS by exact Hj. apply ap_ext; [reflexivity|]. intros k Hk. now apply ap_inv'.
  Qed.
  Lemma apS u i : i < n -> ap m S u i = if i <? rk then (S i i * u i)%Z else 0%Z.
  Proof.
    intros Hi. destruct HS as (_ & _ & _ & D1 & D2 & D3 & D4). destruct (Nat.ltb_spec i rk).
    - unfold ap. rewrite (sum_single RZ m i); [reflexivity|lia|]. intros j Hj Hne. rewrite D4 by auto. cbn [tmul t0 ops_Z]. lia.
    - apply (sum_zero RZ). intros j Hj. rewrite D4 by auto. cbn [tmul t0 ops_Z]. lia.
  Qed.
  Lemma kernel_ok u : (forall i, i < n -> ap m f u i = 0%Z) <-> (forall i, i < rk -> ap m Cg u i = 0%Z).
  Proof.
    destruct HS as (F & IR & IC & D1 & D2 & D3 & D4). split; intros H i Hi.
    - assert (E : ap n R (ap m f u) i = 0%Z) by (apply ap_zero; exact H). rewrite RfS, apS in E by lia. replace (i <? rk) with true in E by lia. specialize (D3 i Hi). nia.
    - rewrite (ap_ext m f f u (ap m C (ap m Cg u))); [|reflexivity|intros j Hj; symmetry; now apply ap_inv]. rewrite fCS by exact Hi.
      apply ap_zero. intros j Hj. rewrite apS by exact Hj. destruct (j <? rk) eqn:E; [|reflexivity]. rewrite H by lia. lia.
  Qed.
  Lemma image_ok x : (exists y, forall i, i < n -> x i = ap m f y i) <->
    (forall i, i < rk -> (S i i | ap n R x i)%Z) /\ (forall i, rk <= i < n -> ap n R x i = 0%Z).
  Proof.
    destruct HS as (F & IR & IC & D1 & D2 & D3 & D4). split.
    - intros (y & Hy). assert (E : forall i, i < n -> ap n R x i = ap m S (ap m Cg y) i).
      { intros i Hi. rewrite <- RfS by exact Hi. apply ap_ext; [reflexivity|exact Hy]. }
      split; intros i Hi; rewrite E, apS by lia.
      + replace (i <? rk) with true by lia. exists (ap m Cg y i). lia.
      + now replace (i <? rk) with false by lia.
    - intros [H1 H2]. exists (ap m C (fun i => (ap n R x i / S i i)%Z)). intros i Hi. rewrite fCS by exact Hi. rewrite <- (ap_inv' n R Ri x i IR Hi) at 1.
      apply ap_ext; [reflexivity|]. intros j Hj. rewrite apS by exact Hj. destruct (j <? rk) eqn:E; [|apply H2; lia].
      destruct (H1 j ltac:(lia)) as (k & Hk). rewrite Hk. rewrite Z.div_mul by (apply D3; lia). lia.
  Qed.
  Lemma smith_rank : is_rank n m f rk.
  Proof.
    destruct HS as (F & IR & IC & D1 & D2 & D3 & D4). split.
    - exists R. intros c Hc i Hi.
      (* c * (first rk rows of R f) = 0, multiply by C *)
      assert (E : sum rk (fun k => tmul (c k) (S k i)) = 0%Z).
      { rewrite (sum_ext rk _ (fun k => tmul (c k) (ap m (zprod n R f) (fun j => C j i) k))).
        - unfold ap. rewrite (sum_ext rk _ (fun k => sum m (fun j => tmul (tmul (c k) (zprod n R f k j)) (C j i)))).
          + rewrite (sum_swap RZ). apply (sum_zero RZ). intros j Hj. rewrite (sum_mul_r RZ). rewrite Hc by exact Hj. cbn [tmul t0 ops_Z]. lia.
          + intros k Hk. rewrite <- (sum_mul_l RZ). apply sum_ext. intros j Hj. cbn [tmul ops_Z]. lia.
        - intros k Hk. f_equal. rewrite <- (F k i) by lia. rewrite <- (prod_assoc RZ). reflexivity. }
      rewrite (sum_single RZ rk i) in E; [|exact Hi|intros k Hk Hne; rewrite D4 by (auto; lia); cbn [tmul t0 ops_Z]; lia].
      cbn [tmul t0 ops_Z] in *. specialize (D3 i Hi). nia.
    - intros s (K & HK). destruct (Nat.le_gt_cases s rk) as [|Hgt]; [assumption|]. exfalso.
      (* K f = (K Ri S) Cg and K Ri S has rk columns *)
      destruct (steinitz_Z rk s (fun i j => zprod n K Ri i j) Hgt) as (c & Hc & (i & Hi & Hne)). apply Hne. apply (HK c); [|exact Hi].
      intros j Hj.
      assert (Ef : forall a, a < n -> f a j = ap n Ri (ap m S (fun k => Cg k j)) a).
      { intros a Ha. rewrite <- fCS by exact Ha. rewrite <- (prod_id_r RZ m f a j Hj). unfold prod_entry, ap. apply sum_ext. intros k Hk. f_equal.
        rewrite <- (proj1 (IC k j Hk Hj)). reflexivity. }
      rewrite (sum_ext s _ (fun a => tmul (c a) (sum rk (fun k => tmul (zprod n K Ri a k) (tmul (S k k) (Cg k j)))))).
      + rewrite (sum_ext s _ (fun a => sum rk (fun k => tmul (tmul (c a) (zprod n K Ri a k)) (tmul (S k k) (Cg k j))))).
        * rewrite (sum_swap RZ). apply (sum_zero RZ). intros k Hk. rewrite (sum_mul_r RZ). rewrite Hc by exact Hk. cbn [tmul t0 ops_Z]. lia.
        * intros a Ha. rewrite <- (sum_mul_l RZ). apply sum_ext. intros k Hk. cbn [tmul ops_Z]. lia.
      + intros a Ha. f_equal. transitivity (ap n K (ap n Ri (ap m S (fun k => Cg k j))) a).
        * unfold prod_entry, ap at 1. apply sum_ext. intros b Hb. f_equal. now apply Ef.
        * rewrite <- ap_prod. unfold ap at 1. replace n with (rk + (n - rk)) at 1 by lia. rewrite sum_split.
          rewrite (sum_zero RZ (n - rk)).
          -- rewrite (sum_ext rk _ (fun k => tmul (zprod n K Ri a k) (tmul (S k k) (Cg k j)))).
             ++ cbn [tadd t0 ops_Z]. lia.
             ++ intros k Hk. f_equal. rewrite apS by lia. now replace (k <? rk) with true by lia.
          -- intros k Hk. rewrite apS by lia. replace (rk + k <? rk) with false by lia. cbn [tmul t0 ops_Z]. lia.
  Qed.
End Smith.

Lemma smith_exists n m f : 0 < n -> 0 < m -> exists S Ri R C Cg rk, smith n m f S Ri R C Cg rk.
Proof. intros Hn Hm. destruct (snf_ok n m f Hn Hm) as (S & Ri & R & C & Ci & Cg & rk & _ & H1 & H2 & H3 & H4 & _). exists S, Ri, R, C, Cg, rk. split; [exact H1|]. split; [exact H2|]. split; [exact H3|exact H4]. Qed.

(** coordinates on a kernel *)
Lemma kernel_coords n m f : 0 < n -> exists C Cg rk, inverse_on m C Cg /\ is_rank n m f rk /\ rk <= m /\
  forall u, (forall i, i < n -> ap m f u i = 0%Z) <-> (forall i, i < rk -> ap m Cg u i = 0%Z).
Proof.
  intros Hn. destruct m as [|m].
  - exists zid, zid, 0. split; [intros p q Hp; lia|]. split; [|split; [lia|]].
    + split; [exists zid; intros c _ i Hi; lia|]. intros s Hs. apply rank_le_Z in Hs. lia.
    + intros u. split; [lia|]. intros _ i Hi. reflexivity.
  - destruct (smith_exists n (S m) f Hn ltac:(lia)) as (S0 & Ri & R & C & Cg & rk & H). exists C, Cg, rk.
    pose proof H as (F & IR & IC & D1 & D2 & _). split; [exact IC|]. split; [exact (smith_rank _ _ _ _ _ _ _ _ _ H)|]. split; [exact D2|]. exact (kernel_ok _ _ _ _ _ _ _ _ _ H).
Qed.

(** lists in two blocks *)
Definition blocks (p r : nat) (a b : nat -> Z) : list Z := map a (seq 0 p) ++ map b (seq 0 r).
Lemma blocks_length p r a b : length (blocks p r a b) = p + r.
Proof. unfold blocks. now rewrite app_length, !map_length, !seq_length. Qed.
Lemma blocks_nth p r a b i : i < p + r -> nth i (blocks p r a b) 0%Z = if i <? p then a i else b (i - p).
Proof.
  intros Hi. unfold blocks. destruct (Nat.ltb_spec i p).
  - rewrite app_nth1 by (rewrite map_length, seq_length; lia). now apply map_seq_nth.
  - rewrite app_nth2 by (rewrite map_length, seq_length; lia). rewrite map_length, seq_length. apply map_seq_nth. lia.
Qed.
Lemma blocks_ext p r a b a' b' : (forall i, i < p -> a i = a' i) -> (forall i, i < r -> b i = b' i) -> blocks p r a b = blocks p r a' b'.
Proof. intros H1 H2. unfold blocks. f_equal; apply map_ext_in; intros i Hi; apply in_seq in Hi; [apply H1|apply H2]; lia. Qed.
Lemma list_blocks p r g : length g = p + r -> g = blocks p r (fun i => nth i g 0%Z) (fun i => nth (p + i) g 0%Z).
Proof.
  intros H. apply (nth_ext _ _ 0%Z 0%Z); [now rewrite blocks_length|]. intros i Hi. rewrite blocks_nth by lia. destruct (Nat.ltb_spec i p); [reflexivity|]. f_equal. lia.
Qed.
Lemma geq_blocks p r ms a b a' b' : ms = blocks p r (fun _ => 0%Z) (fun i => nth (p + i) ms 0%Z) ->
  (geq ms (blocks p r a b) (blocks p r a' b') <-> (forall i, i < p -> a i = a' i) /\ forall i, i < r -> (nth (p + i) ms 0 | b i - b' i)%Z).
Proof.
  intros Hm. assert (L : length ms = p + r) by (rewrite Hm; apply blocks_length). unfold geq. rewrite !blocks_length, L. split.
  - intros (_ & _ & H). split; intros i Hi.
    + specialize (H i ltac:(lia)). rewrite !blocks_nth in H by lia. rewrite Hm in H. rewrite blocks_nth in H by lia. replace (i <? p) with true in H by lia. apply Z.divide_0_l in H. lia.
    + specialize (H (p + i) ltac:(lia)). rewrite !blocks_nth in H by lia. replace (p + i <? p) with false in H by lia. now replace (p + i - p) with i in H by lia.
  - intros [H1 H2]. split; [reflexivity|]. split; [reflexivity|]. intros i Hi. rewrite !blocks_nth by lia. destruct (Nat.ltb_spec i p).
    + rewrite H1 by lia. rewrite Z.sub_diag. apply Z.divide_0_r.
    + replace i with (p + (i - p)) at 1 by lia. apply H2. lia.
Qed.
Lemma blocks_gadd p r a b a' b' : gadd (blocks p r a b) (blocks p r a' b') = blocks p r (fun i => (a i + a' i)%Z) (fun i => (b i + b' i)%Z).
Proof.
  apply (nth_ext _ _ 0%Z 0%Z); [rewrite gadd_length, !blocks_length; lia|]. intros i Hi. rewrite gadd_length, !blocks_length in Hi.
  rewrite gadd_nth by (now rewrite !blocks_length). rewrite !blocks_nth by lia. now destruct (i <? p).
Qed.

(** The homology of  Z^p --A--> Z^n --B--> Z^q  with B A = 0. *)
Section Homology.
  Variables (q n p : nat) (A B : nat -> nat -> Z).
  Variables (S Ri R C Cg : nat -> nat -> Z) (rA rB : nat).
  Hypothesis Hq : 0 < q.
  Hypothesis HA : smith n p A S Ri R C Cg rA.
  Hypothesis HB : is_rank q n B rB.
  Hypothesis HBA : forall u i, i < q -> ap n B (ap p A u) i = 0%Z.
  Let n' := n - rA.
  Let B' i j := ap n B (fun k => Ri k (rA + j)) i.

  Lemma rA_le : rA <= n /\ rA <= p. Proof. destruct HA as (_ & _ & _ & D1 & D2 & _). now split. Qed.
  Lemma B_Ri y i : i < q -> ap n B (ap n Ri y) i = ap n' B' (fun j => y (rA + j)) i.
  Proof.
    pose proof rA_le as [Hn Hp]. intros Hi. rewrite <- ap_prod. unfold ap at 1. replace n with (rA + n') at 1 by (unfold n'; lia). rewrite sum_split.
    rewrite (sum_zero RZ rA).
    - cbn [tadd t0 ops_Z]. rewrite Z.add_0_l. reflexivity.
    - intros k Hk. pose proof HA as (F & IR & IC & D1 & D2 & D3 & D4).
      (* column k of B Ri times S k k is B A C e_k *)
      assert (E : ap n B (ap n Ri (ap p S (fun j => zid j k))) i = 0%Z).
      { rewrite <- (HBA (ap p C (fun j => zid j k)) i Hi). apply ap_ext; [reflexivity|]. intros j Hj. symmetry. exact (fCS n p A S Ri R C Cg rA HA _ j Hj). }
      rewrite <- ap_prod in E. unfold ap at 1 in E. rewrite (sum_single RZ n k) in E; [|lia|].
      + rewrite (apS n p A S Ri R C Cg rA HA) in E by lia. replace (k <? rA) with true in E by lia. unfold id_entry in E. rewrite Nat.eqb_refl in E.
        change (zprod n B Ri i k * (S k k * 1) = 0)%Z in E. change (zprod n B Ri i k * y k = 0)%Z. specialize (D3 k Hk).
        assert (E0 : zprod n B Ri i k = 0%Z) by nia. rewrite E0. lia.
      + intros j Hj Hne. rewrite (apS n p A S Ri R C Cg rA HA) by lia. unfold id_entry. replace (j =? k) with false by lia. cbn [tmul t0 ops_Z]. destruct (j <? rA); lia.
  Qed.
  Lemma rank_B' r : is_rank q n' B' r -> r = rB.
  Proof.
    pose proof HA as (F & IR & IC & D1 & D2 & _).
    assert (X : forall s, rank_at_least q n B s <-> rank_at_least q n' B' s).
    { intros s.
      assert (Y : forall K c, (forall j, j < n -> sum s (fun a => tmul (c a) (zprod q K B a j)) = 0%Z) <-> (forall j, j < n' -> sum s (fun a => tmul (c a) (zprod q K B' a j)) = 0%Z)).
      { intros K c.
        (* let w = c K, a row vector *)
        assert (W : forall (M : nat -> nat -> Z) j, sum s (fun a => tmul (c a) (zprod q K M a j)) = ap q (fun _ k => sum s (fun a => tmul (c a) (K a k))) (fun k => M k j) 0).
        { intros M j. unfold ap. rewrite (sum_ext s _ (fun a => sum q (fun k => tmul (tmul (c a) (K a k)) (M k j)))).
          - rewrite (sum_swap RZ). apply sum_ext. intros k Hk. now rewrite (sum_mul_r RZ).
          - intros a Ha. unfold prod_entry. rewrite <- (sum_mul_l RZ). apply sum_ext. intros k Hk. cbn [tmul ops_Z]. lia. }
        set (w := fun k => sum s (fun a => tmul (c a) (K a k))) in *.
        assert (Z0 : forall y, ap n (fun _ j => ap q (fun _ k => w k) (fun k => B k j) 0) y 0 = ap q (fun _ k => w k) (ap n B y) 0).
        { intros y. symmetry. rewrite <- (ap_prod q n (fun _ k => w k) B y 0). reflexivity. }
        split; intros H j Hj.
        - rewrite W. transitivity (ap q (fun _ k => w k) (ap n B (fun k => Ri k (rA + j))) 0); [reflexivity|]. rewrite <- Z0. apply (sum_zero RZ). intros k Hk. rewrite <- W, H by exact Hk. reflexivity.
        - rewrite W. rewrite (ap_ext q _ (fun _ k => w k) (fun k => B k j) (ap n' B' (fun l => R (rA + l) j))); [|reflexivity|].
          + rewrite <- (ap_prod q n' (fun _ k => w k) B' _ 0). apply (sum_zero RZ). intros k Hk.
            assert (E := H k Hk). rewrite W in E. etransitivity; [exact (f_equal (fun z => tmul z (R (rA + k) j)) E)|]. cbn [tmul t0 ops_Z]. lia.
          + intros k Hk. rewrite <- (B_Ri (fun l => R l j) k Hk). rewrite <- (prod_id_r RZ n B k j Hj). unfold prod_entry. apply sum_ext. intros l Hl. f_equal. symmetry. exact (proj2 (IR l j Hl Hj)). }
      split; intros (K & HK); exists K; intros c Hc; apply HK; [now apply Y|]. apply Y. exact Hc. }
    intros [H1 H2]. destruct HB as [H3 H4]. apply X in H1. pose proof (H4 _ H1). apply X in H3. specialize (H2 _ H3). lia.
  Qed.

  Lemma repeat_seq : forall k s, repeat 0%Z k = map (fun _ : nat => 0%Z) (seq s k).
  Proof. induction k as [|k IH]; intros s; [reflexivity|]. cbn [repeat seq map]. now rewrite (IH (Datatypes.S s)). Qed.

  Theorem homology_ok : rB + rA <= n /\
    quotient_is (fun x => length x = n /\ forall i, i < q -> ap n B (fun j => nth j x 0%Z) i = 0%Z)
                (fun x => length x = n /\ exists y, forall i, i < n -> nth i x 0%Z = ap p A y i)
                (repeat 0%Z (n - rB - rA) ++ map (fun i => S i i) (seq 0 rA)).
  Proof.
    pose proof rA_le as [Hn Hp]. pose proof HA as (F & IR & IC & D1 & D2 & D3 & D4).
    destruct (kernel_coords q n' B' Hq) as (C' & Cg' & r' & I' & R' & L' & K'). pose proof (rank_B' r' R') as ->. unfold n' in L'. split; [lia|].
    set (fr := n - rB - rA). set (ms := repeat 0%Z fr ++ map (fun i => S i i) (seq 0 rA)).
    assert (Ms : ms = blocks fr rA (fun _ => 0%Z) (fun i => S i i)).
    { unfold ms, blocks. f_equal. apply repeat_seq. }
    assert (Mn : forall i, i < rA -> nth (fr + i) ms 0%Z = S i i).
    { intros i Hi. rewrite Ms, blocks_nth by lia. replace (fr + i <? fr) with false by lia. f_equal; lia. }
    assert (Ms' : ms = blocks fr rA (fun _ => 0%Z) (fun i => nth (fr + i) ms 0%Z)). { rewrite Ms at 1. apply blocks_ext; [reflexivity|]. intros i Hi. now rewrite Mn. }
    assert (Ml : length ms = fr + rA) by (rewrite Ms; apply blocks_length).
    (* the two coordinate maps *)
    set (Y := fun (u : nat -> Z) => ap n R u).
    set (Z1 := fun (u : nat -> Z) i => ap n' Cg' (fun j => Y u (rA + j)) (rB + i)).
    assert (KerB : forall u, (forall i, i < q -> ap n B u i = 0%Z) <-> (forall i, i < rB -> ap n' Cg' (fun j => Y u (rA + j)) i = 0%Z)).
    { intros u. rewrite <- K'. assert (E : forall i, i < q -> ap n B u i = ap n' B' (fun j => Y u (rA + j)) i).
      { intros i Hi. rewrite <- B_Ri by exact Hi. apply ap_ext; [reflexivity|]. intros j Hj. symmetry. now apply ap_inv'. }
      split; intros H i Hi; [rewrite <- E by exact Hi|rewrite E by exact Hi]; auto. }
    exists (fun x => blocks fr rA (Z1 (fun j => nth j x 0%Z)) (Y (fun j => nth j x 0%Z))).
    split; [|split; [|split]].
    - intros x Hx. unfold gelt. now rewrite blocks_length, Ml.
    - intros x y [Lx _] [Ly _]. rewrite blocks_gadd.
      assert (Gn : forall j, nth j (gadd x y) 0%Z = (nth j x 0 + nth j y 0)%Z) by (intros j; apply gadd_nth; lia).
      rewrite (blocks_ext fr rA _ (Y (fun j => nth j (gadd x y) 0%Z)) (fun i => (Z1 (fun j => nth j x 0) i + Z1 (fun j => nth j y 0) i)%Z) (fun i => (Y (fun j => nth j x 0) i + Y (fun j => nth j y 0) i)%Z)).
      + apply geq_refl. unfold gelt. now rewrite blocks_length, Ml.
      + intros i Hi. unfold Z1. rewrite <- ap_add. apply ap_ext; [reflexivity|]. intros j Hj. unfold Y. rewrite <- ap_add. apply ap_ext; [reflexivity|]. intros k Hk. apply Gn.
      + intros i Hi. unfold Y. rewrite <- ap_add. apply ap_ext; [reflexivity|]. intros k Hk. apply Gn.
    - intros x [Lx Hx]. set (u := fun j => nth j x 0%Z) in *.
      replace (map (fun _ : Z => 0%Z) ms) with (blocks fr rA (fun _ => 0%Z) (fun _ => 0%Z)).
      2:{ rewrite Ms. unfold blocks. rewrite map_app, !map_map. reflexivity. }
      rewrite (geq_blocks _ _ ms _ _ _ _ Ms'). change (exists y : nat -> Z, forall i : nat, i < n -> nth i x 0%Z = ap p A y i) with (exists y : nat -> Z, forall i : nat, i < n -> u i = ap p A y i). rewrite (image_ok n p A S Ri R C Cg rA HA u). pose proof (proj1 (KerB u) Hx) as Hx'. clear Hx. rename Hx' into Hx. split.
      + intros [H1 H2]. split; [exact Lx|]. split.
        * intros i Hi. specialize (H2 i Hi). rewrite Mn, Z.sub_0_r in H2 by exact Hi. exact H2.
        * (* all coordinates of the second part vanish *)
          assert (Z0 : forall i, i < n' -> ap n' Cg' (fun j => Y u (rA + j)) i = 0%Z).
          { intros i Hi. destruct (Nat.lt_ge_cases i rB); [now apply Hx|]. specialize (H1 (i - rB) ltac:(unfold fr, n' in *; lia)). unfold Z1 in H1. now replace (rB + (i - rB)) with i in H1 by lia. }
          intros i Hi. assert (E : Y u (rA + (i - rA)) = 0%Z).
          { rewrite <- (ap_inv n' C' Cg' (fun j => Y u (rA + j)) (i - rA) I') by (unfold n'; lia). apply ap_zero. exact Z0. }
          now replace (rA + (i - rA)) with i in E by lia.
      + intros (_ & H1 & H2). split.
        * intros i Hi. apply ap_zero. intros j Hj. apply H2. unfold n' in Hj. lia.
        * intros i Hi. rewrite Mn, Z.sub_0_r by exact Hi. now apply H1.
    - intros g Hg. unfold gelt in Hg. rewrite Ml in Hg.
      set (z := fun j => if j <? rB then 0%Z else nth (j - rB) g 0%Z). set (y' := ap n' C' z).
      set (y := fun i => if i <? rA then nth (fr + i) g 0%Z else y' (i - rA)).
      exists (map (ap n Ri y) (seq 0 n)).
      assert (U : forall j, j < n -> nth j (map (ap n Ri y) (seq 0 n)) 0%Z = ap n Ri y j) by (intros j Hj; now rewrite map_seq_nth).
      assert (YU : forall i, i < n -> Y (fun j => nth j (map (ap n Ri y) (seq 0 n)) 0%Z) i = y i).
      { intros i Hi. unfold Y. rewrite (ap_ext n R R _ (ap n Ri y)); [|reflexivity|exact U]. now apply ap_inv. }
      assert (YZ : forall i, i < n' -> ap n' Cg' (fun j => Y (fun j => nth j (map (ap n Ri y) (seq 0 n)) 0%Z) (rA + j)) i = z i).
      { intros i Hi. rewrite (ap_ext n' Cg' Cg' _ y'); [|reflexivity|].
        - unfold y'. now apply ap_inv'.
        - intros j Hj. rewrite YU by (unfold n' in Hj; lia). unfold y. replace (rA + j <? rA) with false by lia. f_equal. lia. }
      split; [split; [now rewrite map_length, seq_length|]|].
      + apply KerB. intros i Hi. rewrite YZ by (unfold n'; lia). unfold z. now replace (i <? rB) with true by lia.
      + rewrite (list_blocks fr rA g Hg) at 1. apply (geq_blocks _ _ ms _ _ _ _ Ms'). split; intros i Hi.
        * unfold Z1. rewrite YZ by (unfold n', fr in *; lia). unfold z. replace (rB + i <? rB) with false by lia. f_equal. lia.
        * rewrite YU by lia. unfold y. replace (i <? rA) with true by lia. rewrite Z.sub_diag. apply Z.divide_0_r.
  Qed.
End Homology.
