(** A chain complex that is the sum of two others, which may share one generator in degree 0: its homology in positive
    degrees is the direct sum. *)
From Coq Require Import List Arith ZArith Bool Lia ZifyBool ZifyNat.
From Verif Require Import MatSpec LinSpec LinModel LinProofs3 HomSpec CompProps IsoProofs IsoProofs2 CollapseProofs.
Import ListNotations.
Open Scope nat_scope.

(** ** Direct sums of groups *)
Lemma geq_app ms : forall ns a a' b b', length a = length ms -> length a' = length ms -> (geq (ms ++ ns) (a ++ b) (a' ++ b') <-> geq ms a a' /\ geq ns b b').
Proof.
  induction ms as [|m ms IH]; intros ns [|x a] [|y a'] b b' H H'; cbn in H, H'; try lia.
  - cbn. split; [intros K; split; [apply geq_nil|exact K]|tauto].
  - cbn [app]. rewrite !geq_cons, IH by lia. tauto.
Qed.
Lemma gadd_app a : forall a' b b', length a = length a' -> gadd (a ++ b) (a' ++ b') = gadd a a' ++ gadd b b'.
Proof. induction a as [|x a IH]; intros [|y a'] b b' H; cbn in H |- *; try lia; [reflexivity|]. now rewrite IH by lia. Qed.
Lemma zsum_or n (P : nat -> Prop) : (forall j, {P j} + {~ P j}) -> (exists j, j < n /\ P j) \/ (forall j, j < n -> ~ P j).
Proof.
  intros D. induction n as [|n [(j & Hj & K)|IH]]; [right; lia|left; exists j; split; [lia|exact K]|]. destruct (D n) as [K|K]; [left; exists n; split; [lia|exact K]|].
  right. intros j Hj. destruct (Nat.eq_dec j n) as [->|]; [exact K|apply IH; lia].
Qed.

Section Union.
  Variables (c c1 c2 : nat -> nat) (e e1 e2 : nat -> nat -> nat -> Z) (io1 io2 inv1 inv2 : nat -> nat -> nat) (side : nat -> nat -> bool).
  Hypothesis io1_lt : forall k j, j < c1 k -> io1 k j < c k.
  Hypothesis io2_lt : forall k j, j < c2 k -> io2 k j < c k.
  Hypothesis side_t : forall k i, i < c k -> side k i = true -> inv1 k i < c1 k /\ io1 k (inv1 k i) = i.
  Hypothesis side_f : forall k i, i < c k -> side k i = false -> inv2 k i < c2 k /\ io2 k (inv2 k i) = i.
  Hypothesis side1 : forall k j, j < c1 k -> side k (io1 k j) = true /\ inv1 k (io1 k j) = j.
  Hypothesis side2 : forall k j, j < c2 k -> inv2 k (io2 k j) = j.
  Hypothesis sep : forall k j, 0 < k -> j < c2 k -> side k (io2 k j) = false.
  Hypothesis common : forall j j', j < c2 0 -> j' < c2 0 -> side 0 (io2 0 j) = true -> side 0 (io2 0 j') = true -> j = j'.
  Hypothesis ent1 : forall k i j, i < c1 k -> j < c1 (S k) -> e1 k i j = e k (io1 k i) (io1 (S k) j).
  Hypothesis ent2 : forall k i j, i < c2 k -> j < c2 (S k) -> e2 k i j = e k (io2 k i) (io2 (S k) j).
  Hypothesis zero1 : forall k i j, i < c k -> j < c1 (S k) -> (forall i1, i1 < c1 k -> io1 k i1 <> i) -> e k i (io1 (S k) j) = 0%Z.
  Hypothesis zero2 : forall k i j, i < c k -> j < c2 (S k) -> (forall i2, i2 < c2 k -> io2 k i2 <> i) -> e k i (io2 (S k) j) = 0%Z.
  Hypothesis aug2 : forall j, j < c2 1 -> sum (c2 0) (fun i => e2 0 i j) = 0%Z.
  Set Default Proof Using "All".
  Definition part1 k (y : nat -> Z) i := sum (c1 (S k)) (fun j => e k i (io1 (S k) j) * y (io1 (S k) j))%Z.
  Definition part2 k (y : nat -> Z) i := sum (c2 (S k)) (fun j => e k i (io2 (S k) j) * y (io2 (S k) j))%Z.
  Lemma io1_inj k j j' : j < c1 k -> j' < c1 k -> io1 k j = io1 k j' -> j = j'.
  Proof. intros H H' E. rewrite <- (proj2 (side1 k j H)), E. now apply side1. Qed.
  Lemma io2_inj k j j' : j < c2 k -> j' < c2 k -> io2 k j = io2 k j' -> j = j'.
  Proof. intros H H' E. rewrite <- (side2 k j H), E. now apply side2. Qed.
  Lemma bd_split k y i : bd e c k y i = (part1 k y i + part2 k y i)%Z.
  Proof.
    unfold bd, part1, part2.
    rewrite (zsum_ext _ _ (fun j => (if side (S k) j then e k i j * y j else 0) + (if side (S k) j then 0 else e k i j * y j)))%Z by (intros j _; destruct (side (S k) j); lia). rewrite zsum_add. f_equal.
    - rewrite (zsum_reindex (io1 (S k)) (c1 (S k))).
      + apply zsum_ext. intros j Hj. now rewrite (proj1 (side1 (S k) j Hj)).
      + apply io1_lt.
      + apply io1_inj.
      + intros j Hj N. destruct (side (S k) j) eqn:E; [|reflexivity]. destruct (side_t _ _ Hj E) as [A B]. now destruct (N _ A).
    - rewrite (zsum_reindex (io2 (S k)) (c2 (S k))).
      + apply zsum_ext. intros j Hj. now rewrite sep by lia.
      + apply io2_lt.
      + apply io2_inj.
      + intros j Hj N. destruct (side (S k) j) eqn:E; [reflexivity|]. destruct (side_f _ _ Hj E) as [A B]. now destruct (N _ A).
  Qed.
  Lemma part1_bd k y i : i < c1 k -> part1 k y (io1 k i) = bd e1 c1 k (fun j => y (io1 (S k) j)) i.
  Proof. intros H. unfold part1, bd. apply zsum_ext. intros j Hj. now rewrite ent1. Qed.
  Lemma part2_bd k y i : i < c2 k -> part2 k y (io2 k i) = bd e2 c2 k (fun j => y (io2 (S k) j)) i.
  Proof. intros H. unfold part2, bd. apply zsum_ext. intros j Hj. now rewrite ent2. Qed.
  Lemma part1_zero k y i : i < c k -> (forall i1, i1 < c1 k -> io1 k i1 <> i) -> part1 k y i = 0%Z.
  Proof. intros H N. unfold part1. apply zsum_zero. intros j Hj. now rewrite zero1. Qed.
  Lemma part2_zero k y i : i < c k -> (forall i2, i2 < c2 k -> io2 k i2 <> i) -> part2 k y i = 0%Z.
  Proof. intros H N. unfold part2. apply zsum_zero. intros j Hj. now rewrite zero2. Qed.
  Lemma part1_any k y i : i < c k -> (exists i1, i1 < c1 k /\ part1 k y i = bd e1 c1 k (fun j => y (io1 (S k) j)) i1) \/ part1 k y i = 0%Z.
  Proof.
    intros H. destruct (zsum_or (c1 k) (fun i1 => io1 k i1 = i) (fun j => Nat.eq_dec _ _)) as [(i1 & Hi & <-)|N]; [left; exists i1; split; [exact Hi|now apply part1_bd]|right; now apply part1_zero].
  Qed.
  Lemma part2_any k y i : i < c k -> (exists i2, i2 < c2 k /\ part2 k y i = bd e2 c2 k (fun j => y (io2 (S k) j)) i2) \/ part2 k y i = 0%Z.
  Proof.
    intros H. destruct (zsum_or (c2 k) (fun i2 => io2 k i2 = i) (fun j => Nat.eq_dec _ _)) as [(i2 & Hi & <-)|N]; [left; exists i2; split; [exact Hi|now apply part2_bd]|right; now apply part2_zero].
  Qed.
  Lemma not_image1 k i2 : i2 < c2 k -> side k (io2 k i2) = false -> forall i1, i1 < c1 k -> io1 k i1 <> io2 k i2.
  Proof. intros H E i1 H1 K. rewrite <- K, (proj1 (side1 k i1 H1)) in E. discriminate E. Qed.
  Lemma aug_bd y : sum (c2 0) (fun i => bd e2 c2 0 y i) = 0%Z.
  Proof.
    unfold bd. rewrite zsum_swap. apply zsum_zero. intros j Hj. rewrite (zsum_ext _ _ (fun i => y j * e2 0 i j)%Z) by (intros; lia). rewrite zsum_mul, aug2 by exact Hj. lia.
  Qed.
  Lemma cyc_split k x : cyc e c k x <-> cyc e1 c1 k (fun j => x (io1 k j)) /\ cyc e2 c2 k (fun j => x (io2 k j)).
  Proof.
    destruct k as [|k]; [cbn; tauto|]. cbn [cyc]. split.
    - intros H.
      assert (F2 : forall i, i < c2 k -> side k (io2 k i) = false -> bd e2 c2 k (fun j => x (io2 (S k) j)) i = 0%Z).
      { intros i Hi E. rewrite <- part2_bd by exact Hi. rewrite <- (H (io2 k i)) by now apply io2_lt. rewrite bd_split, part1_zero; [lia|now apply io2_lt|now apply not_image1]. }
      assert (A2 : forall i, i < c2 k -> bd e2 c2 k (fun j => x (io2 (S k) j)) i = 0%Z).
      { intros i Hi. destruct (side k (io2 k i)) eqn:E; [|now apply F2]. destruct k as [|k]; [|rewrite sep in E by lia; discriminate E].
        eapply eq_trans; [|exact (aug_bd (fun j => x (io2 1 j)))]. symmetry. apply zsum_one; [exact Hi|]. intros j Hj N. apply F2; [exact Hj|]. destruct (side 0 (io2 0 j)) eqn:E'; [|reflexivity]. exfalso. apply N. now apply common. }
      split; [|exact A2]. intros i Hi. rewrite <- part1_bd by exact Hi. pose proof (H (io1 k i) (io1_lt k i Hi)) as K. rewrite bd_split in K.
      destruct (part2_any k x (io1 k i) (io1_lt k i Hi)) as [(i2 & H2 & E)|E]; [rewrite A2 in E by exact H2|]; lia.
    - intros [H1 H2] i Hi. rewrite bd_split. destruct (part1_any k x i Hi) as [(i1 & L1 & E1)|E1]; [rewrite H1 in E1 by exact L1|]; (destruct (part2_any k x i Hi) as [(i2 & L2 & E2)|E2]; [rewrite H2 in E2 by exact L2|]); lia.
  Qed.
  Definition separated (k : nat) : Prop := forall j, j < c2 k -> side k (io2 k j) = false.
  Lemma bnd_split k x : separated k -> (bnd e c k x <-> bnd e1 c1 k (fun j => x (io1 k j)) /\ bnd e2 c2 k (fun j => x (io2 k j))).
  Proof.
    intros S. assert (N2 : forall i1, i1 < c1 k -> forall i2, i2 < c2 k -> io2 k i2 <> io1 k i1) by (intros i1 H1 i2 H2 K; symmetry in K; revert K; now apply not_image1; auto).
    split.
    - intros (y & H). split; [exists (fun j => y (io1 (Datatypes.S k) j))|exists (fun j => y (io2 (Datatypes.S k) j))]; intros i Hi.
      + rewrite H by now apply io1_lt. rewrite bd_split, part1_bd, part2_zero; [lia|now apply io1_lt|now apply N2|exact Hi].
      + rewrite H by now apply io2_lt. rewrite bd_split, part2_bd, part1_zero; [lia|now apply io2_lt|now apply not_image1; auto|exact Hi].
    - intros ((y1 & H1) & (y2 & H2)). set (y := fun i => if side (Datatypes.S k) i then y1 (inv1 (Datatypes.S k) i) else y2 (inv2 (Datatypes.S k) i)). exists y.
      assert (Y1 : forall i, bd e1 c1 k (fun j => y (io1 (Datatypes.S k) j)) i = bd e1 c1 k y1 i) by (intros i; apply bd_ext; intros j Hj; unfold y; destruct (side1 (Datatypes.S k) j Hj) as [-> ->]; reflexivity).
      assert (Y2 : forall i, bd e2 c2 k (fun j => y (io2 (Datatypes.S k) j)) i = bd e2 c2 k y2 i) by (intros i; apply bd_ext; intros j Hj; unfold y; rewrite sep, side2 by (exact Hj || lia); reflexivity).
      intros i Hi. rewrite bd_split. destruct (side k i) eqn:E.
      + destruct (side_t k i Hi E) as [A B]. rewrite <- B. rewrite part1_bd, part2_zero, Y1; [rewrite <- H1 by exact A; lia|now apply io1_lt|now apply N2|exact A].
      + destruct (side_f k i Hi E) as [A B]. rewrite <- B in E |- *. rewrite part2_bd, part1_zero, Y2; [rewrite <- H2 by exact A; lia|now apply io2_lt|now apply not_image1|exact A].
  Qed.
  Definition res1 k (x : list Z) : list Z := map (fun j => nth (io1 k j) x 0%Z) (seq 0 (c1 k)).
  Definition res2 k (x : list Z) : list Z := map (fun j => nth (io2 k j) x 0%Z) (seq 0 (c2 k)).
  Lemma res_add io n m x y : length x = m -> length y = m -> (forall j, j < n -> io j < m) ->
    map (fun j => nth (io j) (gadd x y) 0%Z) (seq 0 n) = gadd (map (fun j => nth (io j) x 0%Z) (seq 0 n)) (map (fun j => nth (io j) y 0%Z) (seq 0 n)).
  Proof.
    intros L L' H. apply list_ext; [rewrite gadd_length; rewrite !map_length; reflexivity|]. intros i. rewrite gadd_nth by now rewrite !map_length. destruct (Nat.lt_ge_cases i n) as [Hi|Hi].
    - rewrite !fn_map by exact Hi. now rewrite gadd_nth by lia.
    - rewrite !nth_overflow by (rewrite map_length, seq_length; lia). reflexivity.
  Qed.
  Lemma cycl_split k x : length x = c k -> (cycl e c k x <-> cycl e1 c1 k (res1 k x) /\ cycl e2 c2 k (res2 k x)).
  Proof.
    intros L. unfold cycl, res1, res2. rewrite !map_length, !seq_length, (cyc_split k (fun i => nth i x 0%Z)). split.
    - intros (_ & A & B). repeat split; auto; (eapply cyc_ext; [|eassumption]); intros i Hi; cbn beta; now rewrite fn_map.
    - intros ((_ & A) & (_ & B)). repeat split; auto; (eapply cyc_ext; [|eassumption]); intros i Hi; cbn beta; now rewrite fn_map.
  Qed.
  Lemma bndl_split k x : separated k -> length x = c k -> (bndl e c k x <-> bndl e1 c1 k (res1 k x) /\ bndl e2 c2 k (res2 k x)).
  Proof.
    intros S L. unfold bndl, res1, res2. rewrite !map_length, !seq_length, (bnd_split k (fun i => nth i x 0%Z) S). split.
    - intros (_ & A & B). repeat split; auto; (eapply bnd_ext; [|eassumption]); intros i Hi; cbn beta; now rewrite fn_map.
    - intros ((_ & A) & (_ & B)). repeat split; auto; (eapply bnd_ext; [|eassumption]); intros i Hi; cbn beta; now rewrite fn_map.
  Qed.
  Theorem union_quotient k ms1 ms2 : separated k -> quotient_is (cycl e1 c1 k) (bndl e1 c1 k) ms1 -> quotient_is (cycl e2 c2 k) (bndl e2 c2 k) ms2 ->
    quotient_is (cycl e c k) (bndl e c k) (ms1 ++ ms2).
  Proof.
    intros S (p1 & A1 & A2 & A3 & A4) (p2 & B1 & B2 & B3 & B4). exists (fun x => p1 (res1 k x) ++ p2 (res2 k x)).
    assert (R : forall x, cycl e c k x -> cycl e1 c1 k (res1 k x) /\ cycl e2 c2 k (res2 k x)) by (intros x H; apply cycl_split; [apply H|exact H]).
    split; [|split; [|split]].
    - intros x H. destruct (R x H) as [H1 H2]. unfold gelt. rewrite !app_length. f_equal; [now apply A1|now apply B1].
    - intros x y Hx Hy. destruct (R x Hx) as [X1 X2]. destruct (R y Hy) as [Y1 Y2]. pose proof (A1 _ X1) as G1. pose proof (A1 _ Y1) as G2. unfold gelt in *.
      rewrite gadd_app by congruence. unfold res1 at 1, res2 at 1. rewrite !(res_add _ _ (c k)) by (apply Hx || apply Hy || apply io1_lt || apply io2_lt). fold (res1 k x) (res1 k y) (res2 k x) (res2 k y).
      assert (Q1 := A2 _ _ X1 Y1). assert (Q2 := B2 _ _ X2 Y2). apply geq_app; [apply Q1|apply Q1|]. split; assumption.
    - intros x Hx. destruct (R x Hx) as [X1 X2]. rewrite map_app, geq_app; [|now apply A1|apply map_length]. rewrite A3, B3 by assumption. symmetry. apply bndl_split; [exact S|apply Hx].
    - intros g G. unfold gelt in G. rewrite app_length in G. destruct (A4 (firstn (length ms1) g)) as (x1 & C1 & E1); [unfold gelt; rewrite firstn_length; lia|]. destruct (B4 (skipn (length ms1) g)) as (x2 & C2 & E2); [unfold gelt; rewrite skipn_length; lia|].
      set (x := map (fun i => if side k i then nth (inv1 k i) x1 0%Z else nth (inv2 k i) x2 0%Z) (seq 0 (c k))).
      assert (Lx : length x = c k) by (unfold x; now rewrite map_length, seq_length).
      assert (R1 : res1 k x = x1).
      { apply list_ext; [unfold res1; rewrite map_length, seq_length; symmetry; apply C1|]. intros i. destruct (Nat.lt_ge_cases i (c1 k)) as [Hi|Hi]; [|rewrite !nth_overflow; [reflexivity|rewrite (proj1 C1); exact Hi|unfold res1; rewrite map_length, seq_length; exact Hi]].
        unfold res1, x. rewrite fn_map by exact Hi. rewrite fn_map by now apply io1_lt. destruct (side1 k i Hi) as [-> ->]. reflexivity. }
      assert (R2 : res2 k x = x2).
      { apply list_ext; [unfold res2; rewrite map_length, seq_length; symmetry; apply C2|]. intros i. destruct (Nat.lt_ge_cases i (c2 k)) as [Hi|Hi]; [|rewrite !nth_overflow; [reflexivity|rewrite (proj1 C2); exact Hi|unfold res2; rewrite map_length, seq_length; exact Hi]].
        unfold res2, x. rewrite fn_map by exact Hi. rewrite fn_map by now apply io2_lt. rewrite S, side2 by exact Hi. reflexivity. }
      exists x. rewrite cycl_split, R1, R2 by exact Lx. split; [split; assumption|]. rewrite <- (firstn_skipn (length ms1) g) at 1. apply geq_app; [apply E1|rewrite firstn_length; lia|]. split; assumption.
  Qed.
End Union.

(** ** Ranks *)
Lemma quot_app n a b : prodl (quot_mods n (a ++ b)) = (prodl (quot_mods n a) * prodl (quot_mods n b))%Z.
Proof. unfold quot_mods. rewrite map_app. apply prodl_app. Qed.
Lemma iso_rank r1 l1 r2 l2 r l : Forall (fun d => 0 < d)%Z l1 -> Forall (fun d => 0 < d)%Z l2 -> Forall (fun d => 0 < d)%Z l ->
  group_iso (repeat 0%Z r ++ l) ((repeat 0%Z r1 ++ l1) ++ (repeat 0%Z r2 ++ l2)) -> r = r1 + r2 /\ prodl l = (prodl l1 * prodl l2)%Z.
Proof.
  intros F1 F2 F I. set (n := (prodl l * prodl l1 * prodl l2)%Z).
  assert (P1 := prodl_pos l1 F1). assert (P2 := prodl_pos l2 F2). assert (P := prodl_pos l F). assert (Pn : (0 < n)%Z) by (unfold n; nia).
  assert (M : forall m, (0 < m)%Z -> ((n * m) ^ Z.of_nat r * prodl l = (n * m) ^ Z.of_nat (r1 + r2) * (prodl l1 * prodl l2))%Z).
  { intros m Hm. assert (Hn : (0 < n * m)%Z) by nia. pose proof (iso_count _ _ (n * m) Hn I) as K. rewrite !quot_app, !quot_zeros in K by exact Hn.
    assert (D : forall t, In t (l ++ l1 ++ l2) -> (t | n * m)%Z).
    { intros t Ht. apply Z.divide_mul_l. unfold n. rewrite !in_app_iff in Ht. destruct Ht as [Ht|[Ht|Ht]]; [apply Z.divide_mul_l, Z.divide_mul_l|apply Z.divide_mul_l, Z.divide_mul_r|apply Z.divide_mul_r]; now apply prodl_div. }
    assert (Q : forall u, incl u (l ++ l1 ++ l2) -> Forall (fun d => 0 < d)%Z u -> quot_mods (n * m) u = u).
    { intros u Hu Fu. apply quot_multiple; [exact Hn|]. rewrite Forall_forall in *. intros t Ht. split; [now apply Fu|]. now apply D, Hu. }
    rewrite (Q l), (Q l1), (Q l2) in K; try assumption; try (intros t Ht; rewrite !in_app_iff; tauto). rewrite K, Nat2Z.inj_add, Z.pow_add_r by lia. ring. }
  pose proof (M 1%Z ltac:(lia)) as K1. pose proof (M 2%Z ltac:(lia)) as K2. rewrite Z.mul_1_r in K1. rewrite !Z.pow_mul_l in K2.
  assert (E : (2 ^ Z.of_nat r = 2 ^ Z.of_nat (r1 + r2))%Z).
  { assert (X : (0 < n ^ Z.of_nat r * prodl l)%Z) by (apply Z.mul_pos_pos; [apply Z.pow_pos_nonneg; lia|exact P]).
    apply (Z.mul_reg_r _ _ (n ^ Z.of_nat r * prodl l)%Z); [lia|]. transitivity (n ^ Z.of_nat r * 2 ^ Z.of_nat r * prodl l)%Z; [ring|]. rewrite K2, K1. ring. }
  apply Z.pow_inj_r in E; [|lia|lia|lia]. assert (R : r = r1 + r2) by lia. split; [exact R|]. rewrite <- R in K1. apply (Z.mul_reg_l _ _ (n ^ Z.of_nat r)%Z); [|exact K1].
  assert (0 < n ^ Z.of_nat r)%Z by (apply Z.pow_pos_nonneg; lia). lia.
Qed.
